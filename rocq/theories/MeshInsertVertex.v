(** insertVertex: execution and correctness. *)
From Verif Require Import Base MeshModel MeshModel2 MeshSpec MeshBase MeshExec MeshOrbit MeshAlloc MeshFlip MeshInsert MeshOpSpec MeshThms MeshConnect MeshSplit.
Open Scope Z_scope.

Definition zs (k n : nat) : list Z := map Z.of_nat (seq k n).
Lemma zs_S k n : zs k (S n) = Z.of_nat k :: zs (S k) n.
Proof. reflexivity. Qed.
Lemma zs_In k n i : In i (zs k n) <-> Z.of_nat k <= i < Z.of_nat k + Z.of_nat n.
Proof.
  unfold zs. rewrite in_map_iff. split.
  - intros (x & <- & H). apply in_seq in H. lia.
  - intros H. exists (Z.to_nat i). split; [lia|]. apply in_seq. lia.
Qed.
Lemma map_getZ l : map (getZ l) (zs 0 (length l)) = l.
Proof.
  enough (H : forall l p, map (getZ (p ++ l)) (zs (length p) (length l)) = l) by (exact (H l [])).
  clear l. induction l as [|x t IH]; intros p; [reflexivity|]. cbn [length]. rewrite zs_S. cbn [map]. f_equal.
  - unfold getZ. rewrite (proj2 (Z.ltb_ge _ _)) by lia. rewrite Nat2Z.id, app_nth2, Nat.sub_diag by lia. reflexivity.
  - specialize (IH (p ++ [x])). rewrite <- app_assoc in IH. rewrite app_length, Nat.add_comm in IH. exact IH.
Qed.
Lemma getZ_nth_In l i : 0 <= i < zlen l -> In (getZ l i) l.
Proof. intros H. unfold getZ. rewrite (proj2 (Z.ltb_ge _ _)) by lia. apply nth_In. unfold zlen in H. lia. Qed.
Lemma In_getZ l x : In x l -> exists i, 0 <= i < zlen l /\ getZ l i = x.
Proof.
  intros H. destruct (In_nth l x (-1) H) as (n & H1 & H2). exists (Z.of_nat n). unfold zlen. split; [lia|].
  unfold getZ. rewrite (proj2 (Z.ltb_ge _ _)) by lia. rewrite Nat2Z.id. exact H2.
Qed.
Lemma getZ_inj l i j : NoDup l -> 0 <= i < zlen l -> 0 <= j < zlen l -> getZ l i = getZ l j -> i = j.
Proof.
  intros ND Hi Hj E. unfold getZ in E. rewrite !(proj2 (Z.ltb_ge _ _)) in E by lia. unfold zlen in *.
  assert (Z.to_nat i = Z.to_nat j); [|lia]. eapply NoDup_nth; eauto; lia.
Qed.
Lemma chain_getZ f a l b i : chain f a l b -> 0 <= i -> i + 1 < zlen l -> getZ l (i + 1) = f (getZ l i).
Proof.
  revert a i; induction l as [|x t IH]; intros a i C Hi Hl; [unfold zlen in Hl; cbn in Hl; lia|].
  destruct C as [-> C]. destruct t as [|y t]; [unfold zlen in Hl; cbn in Hl; lia|].
  destruct (Z.eq_dec i 0) as [->|Hn]; [cbn; destruct C as [-> _]; reflexivity|].
  assert (Gs : forall k, 1 <= k -> getZ (a :: y :: t) k = getZ (y :: t) (k - 1)).
  { intros k Hk. unfold getZ. rewrite !(proj2 (Z.ltb_ge _ _)) by lia. replace (Z.to_nat k) with (S (Z.to_nat (k - 1))) by lia. reflexivity. }
  rewrite !Gs by lia. replace (i + 1 - 1) with (i - 1 + 1) by lia. eapply IH; eauto; [lia|]. unfold zlen in *. cbn [length] in *. lia.
Qed.
Lemma getZ_last l : l <> [] -> getZ l (zlen l - 1) = last l INVALID.
Proof.
  intros H. destruct (exists_last H) as (t & x & ->). rewrite last_last. unfold getZ, zlen. rewrite app_length. cbn [length].
  rewrite (proj2 (Z.ltb_ge _ _)) by lia. replace (Z.to_nat _) with (length t) by lia. rewrite app_nth2, Nat.sub_diag by lia. reflexivity.
Qed.
Lemma getZ_0 f a l b : l <> [] -> chain f a l b -> getZ l 0 = a.
Proof. destruct l; [congruence|]. intros _ [-> _]. reflexivity. Qed.

(** the spokes: leading halfedge, trailing halfedge and face of the i-th triangle *)
Definition prvI (d i : Z) := if i =? 0 then d - 1 else i - 1.
Definition nxtI (d i : Z) := if i =? d - 1 then 0 else i + 1.
Definition spL (N i : Z) := N + 2 * i.
Definition spT (N d i : Z) := N + 2 * prvI d i + 1.
Definition spF (F f i : Z) := if i =? 0 then f else F + i - 1.

(** after k iterations of the hooking loop *)
Record Hooked (m mk : mesh) (N F f c d k : Z) (bs : list Z) : Prop := {
  hk_rec : exists A B C D, mk = set_fHalfedge (set_heFace (set_heVertex (set_heNext m A) B) C) D /\
     zlen A = zlen (heNext m) /\ zlen B = zlen (heVertex m) /\ zlen C = zlen (heFace m) /\ zlen D = zlen (fHalfedge m);
  hk_nb : forall i, 0 <= i < k -> nx mk (getZ bs i) = spL N i;
  hk_nl : forall i, 0 <= i < k -> nx mk (spL N i) = spT N d i;
  hk_nt : forall i, 0 <= i < k -> nx mk (spT N d i) = getZ bs i;
  hk_nx : forall h, 0 <= h < N -> (forall i, 0 <= i < k -> h <> getZ bs i) -> nx mk h = nx m h;
  hk_vl : forall i, 0 <= i < k -> ve mk (spL N i) = ve m (nx m (getZ bs i));
  hk_vt : forall i, 0 <= i < k -> ve mk (spT N d i) = c;
  hk_ve : forall h, 0 <= h < N -> ve mk h = ve m h;
  hk_fb : forall i, 0 <= i < k -> fa mk (getZ bs i) = spF F f i;
  hk_fl : forall i, 0 <= i < k -> fa mk (spL N i) = spF F f i;
  hk_ft : forall i, 0 <= i < k -> fa mk (spT N d i) = spF F f i;
  hk_fa : forall h, 0 <= h < N -> (forall i, 0 <= i < k -> h <> getZ bs i) -> fa mk h = fa m h;
  hk_fh : forall i, 0 <= i < k -> fh mk (spF F f i) = getZ bs i;
  hk_fo : forall g, (forall i, 0 <= i < k -> g <> spF F f i) -> fh mk g = fh m g }.

Section Hook.
Context (m : mesh) (N F f c : Z) (bs : list Z).
Notation d := (zlen bs).
Context (HN : 0 <= N) (Ev : N mod 2 = 0) (NDb : NoDup bs) (Bb : forall i, 0 <= i < d -> 0 <= getZ bs i < N).
Context (Hn : N + 2 * d <= zlen (heNext m)) (Hv : N + 2 * d <= zlen (heVertex m)) (Hf : N + 2 * d <= zlen (heFace m)).
Context (Hff : 0 <= f < F) (HF : F + d - 1 <= zlen (fHalfedge m)).
Context (Bn : forall i, 0 <= i < d -> 0 <= nx m (getZ bs i) < N).

Lemma hook_init : Hooked m m N F f c d 0 bs.
Proof.
  split; try (intros; exfalso; lia); auto. exists (heNext m), (heVertex m), (heFace m), (fHalfedge m). split; [destruct m; reflexivity|auto].
Qed.

Lemma hook_step mk k f' l' b' : Hooked m mk N F f c d k bs -> 0 <= k < d -> f' = spF F f k -> l' = spL N k -> b' = getZ bs k ->
  forall tr, tr = spT N d k ->
  exists m', (let* m := setFHe mk f' b' in
    let* m := setNext m l' tr in
    let* n := next m b' in let* w := vertexOf m n in
    let* m := setVertex m l' w in let* m := setFace m l' f' in
    let* m := setNext m tr b' in let* m := setVertex m tr c in let* m := setFace m tr f' in
    let* m := setNext m b' l' in let* m := setFace m b' f' in Ok m) = Ok m' /\ Hooked m m' N F f c d (k + 1) bs.
Proof.
  intros [(A & B & C & D & Em & ZA & ZB & ZC & ZD) NB NL NT NO VL VT VO FB FL FT FO HH HO] Hk Ef El Eb tr Et.
  assert (Rb := Bb _ Hk). rewrite <- Eb in Rb.
  assert (Rp : 0 <= prvI d k < d) by (clear -Hk; unfold prvI; destruct (Z.eqb_spec k 0); lia).
  assert (Rl : N <= l' < N + 2 * d) by (clear -El Hk; unfold spL in El; lia).
  assert (Rt : N <= tr < N + 2 * d) by (clear -Et Rp; unfold spT in Et; lia).
  assert (Rf : 0 <= f' < zlen (fHalfedge m)) by (clear -Ef Hff HF Hk; unfold spF in Ef; destruct (Z.eqb_spec k 0); lia).
  assert (lt : l' <> tr) by (clear -El Et; unfold spL, spT in *; lia).
  assert (lb : l' <> b') by (clear -Rl Rb; lia). assert (tb : tr <> b') by (clear -Rt Rb; lia).
  assert (ZN : zlen (heNext mk) = zlen (heNext m)) by (rewrite Em; exact ZA).
  assert (ZV : zlen (heVertex mk) = zlen (heVertex m)) by (rewrite Em; exact ZB).
  assert (ZFa : zlen (heFace mk) = zlen (heFace m)) by (rewrite Em; exact ZC).
  assert (ZFh : zlen (fHalfedge mk) = zlen (fHalfedge m)) by (rewrite Em; exact ZD).
  assert (EQ : forall x y, x <> y -> (x =? y) = false) by (intros x y K; apply Z.eqb_neq; exact K).
  assert (Nb : nx mk b' = nx m b').
  { apply NO; auto. intros i Hi K. rewrite Eb in K. apply getZ_inj in K; auto; clear -K Hi Hk; lia. }
  assert (Rn := Bn _ Hk). rewrite <- Eb in Rn.
  assert (BND : 0 <= b' < zlen (heNext mk) /\ 0 <= b' < zlen (heFace mk) /\ 0 <= l' < zlen (heNext mk) /\ 0 <= tr < zlen (heNext mk) /\
    0 <= l' < zlen (heVertex mk) /\ 0 <= tr < zlen (heVertex mk) /\ 0 <= l' < zlen (heFace mk) /\ 0 <= tr < zlen (heFace mk) /\
    0 <= f' < zlen (fHalfedge mk) /\ 0 <= nx m b' < zlen (heVertex mk)).
  { rewrite ZN, ZV, ZFa, ZFh. clear -Rb Rl Rt Rf Rn Hn Hv Hf HN. lia. }
  rewrite setFHe_ok by (clear -BND; bnd). cbn [bind]. rewrite setNext_ok by (clear -BND; bnd). cbn [bind].
  rewrite next_ok by (clear -BND; bnd). cbn [bind].
  assert (E1 : nx (with_next (with_fhe mk f' b') l' tr) b' = nx m b').
  { clear -BND EQ lb Nb. view. rewrite EQ by auto. exact Nb. }
  rewrite E1. rewrite vertexOf_ok by (clear -BND; bnd). cbn [bind].
  assert (E2 : ve (with_next (with_fhe mk f' b') l' tr) (nx m b') = ve m (nx m b')).
  { view. apply VO; auto. }
  rewrite E2.
  rewrite setVertex_ok by (clear -BND; bnd). cbn [bind]. rewrite setFace_ok by (clear -BND; bnd). cbn [bind].
  rewrite setNext_ok by (clear -BND; bnd). cbn [bind]. rewrite setVertex_ok by (clear -BND; bnd). cbn [bind]. rewrite setFace_ok by (clear -BND; bnd). cbn [bind].
  rewrite setNext_ok by (clear -BND; bnd). cbn [bind]. rewrite setFace_ok by (clear -BND; bnd). cbn [bind].
  eexists. split; [reflexivity|].
  match goal with |- Hooked _ ?x _ _ _ _ _ _ _ => set (m' := x) end.
  assert (QN : forall h, nx m' h = if h =? b' then l' else if h =? tr then b' else if h =? l' then tr else nx mk h) by (intros h; clear -BND; unfold m'; view; reflexivity).
  assert (QV : forall h, ve m' h = if h =? tr then c else if h =? l' then ve m (nx m b') else ve mk h) by (intros h; clear -BND; unfold m'; view; reflexivity).
  assert (QF : forall h, fa m' h = if h =? b' then f' else if h =? tr then f' else if h =? l' then f' else fa mk h) by (intros h; clear -BND; unfold m'; view; reflexivity).
  assert (QH : forall h, fh m' h = if h =? f' then b' else fh mk h) by (intros h; clear -BND; unfold m'; view; reflexivity).
  assert (SP : forall i, 0 <= i < k + 1 -> i = k \/ (0 <= i < k)) by (clear; intros; lia).
  assert (bN : forall i, 0 <= i < k -> getZ bs i <> b'). { intros i Hi K. rewrite Eb in K. apply getZ_inj in K; auto; clear -K Hi Hk; lia. }
  assert (Rbi : forall i, 0 <= i < k -> 0 <= getZ bs i < N) by (intros i Hi; apply Bb; clear -Hi Hk; lia).
  assert (bT : forall i, 0 <= i < k -> getZ bs i <> tr) by (intros i Hi; pose proof (Rbi i Hi); clear -H Rt; lia).
  assert (bL : forall i, 0 <= i < k -> getZ bs i <> l') by (intros i Hi; pose proof (Rbi i Hi); clear -H Rl; lia).
  assert (Ri : forall i, 0 <= i < k -> 0 <= prvI d i) by (clear -Hk; intros i Hi; unfold prvI; destruct (Z.eqb_spec i 0); lia).
  assert (lB : forall i, 0 <= i < k -> spL N i <> b') by (clear -Rb; unfold spL; intros; lia).
  assert (lT : forall i, 0 <= i < k -> spL N i <> tr) by (clear -Et; unfold spL, spT in *; intros; lia).
  assert (lL : forall i, 0 <= i < k -> spL N i <> l') by (clear -El; unfold spL in *; intros; lia).
  assert (tB : forall i, 0 <= i < k -> spT N d i <> b') by (intros i Hi; pose proof (Ri i Hi); clear -Rb H; unfold spT; lia).
  assert (tT : forall i, 0 <= i < k -> spT N d i <> tr) by (clear -Et Hk; unfold spT, prvI in *; intros i Hi; destruct (Z.eqb_spec i 0), (Z.eqb_spec k 0); lia).
  assert (tL : forall i, 0 <= i < k -> spT N d i <> l') by (clear -El; unfold spL, spT in *; intros; lia).
  assert (fF : forall i, 0 <= i < k -> spF F f i <> f') by (clear -Ef Hff Hk; unfold spF in *; intros i Hi; destruct (Z.eqb_spec i 0), (Z.eqb_spec k 0); lia).
  assert (kk : 0 <= k < k + 1) by (clear -Hk; lia).
  assert (up : forall i, 0 <= i < k -> 0 <= i < k + 1) by (clear; intros; lia).
  split.
  - exists (heNext m'), (heVertex m'), (heFace m'), (fHalfedge m'). split; [unfold m'; rewrite Em; reflexivity|]. unfold m'. proj. rewrite !zlen_updZ. auto.
  - intros i Hi. rewrite QN. destruct (SP i Hi) as [->|K]; [rewrite <- Eb, Z.eqb_refl; exact El|]. rewrite !EQ by auto. auto.
  - intros i Hi. rewrite QN. destruct (SP i Hi) as [->|K]; [rewrite <- El, <- Et; rewrite !(EQ l') by auto; rewrite Z.eqb_refl; reflexivity|]. rewrite !EQ by auto. auto.
  - intros i Hi. rewrite QN. destruct (SP i Hi) as [->|K]; [rewrite <- Eb, <- Et; rewrite (EQ tr b') by auto; rewrite Z.eqb_refl; reflexivity|]. rewrite !EQ by auto. auto.
  - intros h Hh K. rewrite QN. rewrite (EQ h b') by (rewrite Eb; apply K; exact kk). rewrite (EQ h tr) by (clear -Hh Rt; lia). rewrite (EQ h l') by (clear -Hh Rl; lia). apply NO; auto.
  - intros i Hi. rewrite QV. destruct (SP i Hi) as [->|K]; [rewrite <- El, <- Eb; rewrite (EQ l' tr) by auto; rewrite Z.eqb_refl; reflexivity|]. rewrite !EQ by auto. auto.
  - intros i Hi. rewrite QV. destruct (SP i Hi) as [->|K]; [rewrite <- Et; rewrite Z.eqb_refl; reflexivity|]. rewrite !EQ by auto. auto.
  - intros h Hh. rewrite QV. rewrite (EQ h tr) by (clear -Hh Rt; lia). rewrite (EQ h l') by (clear -Hh Rl; lia). apply VO; auto.
  - intros i Hi. rewrite QF. destruct (SP i Hi) as [->|K]; [rewrite <- Eb, Z.eqb_refl; exact Ef|]. rewrite !EQ by auto. auto.
  - intros i Hi. rewrite QF. destruct (SP i Hi) as [->|K]; [rewrite <- El, <- Ef, Z.eqb_refl; destruct (l' =? b'), (l' =? tr); reflexivity|]. rewrite !EQ by auto. auto.
  - intros i Hi. rewrite QF. destruct (SP i Hi) as [->|K]; [rewrite <- Et, <- Ef, Z.eqb_refl; destruct (tr =? b'); reflexivity|]. rewrite !EQ by auto. auto.
  - intros h Hh K. rewrite QF. rewrite (EQ h b') by (rewrite Eb; apply K; exact kk). rewrite (EQ h tr) by (clear -Hh Rt; lia). rewrite (EQ h l') by (clear -Hh Rl; lia). apply FO; auto.
  - intros i Hi. rewrite QH. destruct (SP i Hi) as [->|K]; [rewrite <- Eb, <- Ef, Z.eqb_refl; reflexivity|]. rewrite !EQ by auto. auto.
  - intros g Hg. rewrite QH. rewrite (EQ g f') by (rewrite Ef; auto). apply HO. auto.
Qed.

Lemma hook_run : forall n k mk tr, Hooked m mk N F f c d (Z.of_nat k) bs -> Z.of_nat k + Z.of_nat n = d -> ((0 < n)%nat -> tr = spT N d (Z.of_nat k)) ->
  exists m', hook_spokes mk c tr (map (spF F f) (zs k n)) (map (spL N) (zs k n)) (map (getZ bs) (zs k n)) = Ok m' /\ Hooked m m' N F f c d d bs.
Proof.
  induction n as [|n IH]; intros k mk tr H Hk Ht.
  - exists mk. split; [reflexivity|]. replace d with (Z.of_nat k) at 2 by lia. exact H.
  - rewrite zs_S. cbn [map hook_spokes].
    destruct (hook_step mk (Z.of_nat k) _ _ _ H ltac:(lia) eq_refl eq_refl eq_refl tr (Ht ltac:(lia))) as (m' & E & H').
    replace (Z.of_nat k + 1) with (Z.of_nat (S k)) in H' by lia.
    destruct (IH (S k) m' (tw (spL N (Z.of_nat k))) H') as (m'' & E2 & H2); [lia| |].
    + intros Hn0. rewrite tw_even by (clear -Ev; unfold spL; lia). unfold spL, spT, prvI. destruct (Z.eqb_spec (Z.of_nat (S k)) 0); lia.
    + exists m''. split; [|exact H2]. revert E.
      repeat match goal with |- (let* x := ?e in _) = Ok _ -> _ => destruct e; cbn [bind]; [|discriminate|discriminate] end.
      intros E. injection E as ->. exact E2.
Qed.
End Hook.

(** allocation of the spokes *)
Lemma spokes_run m : Valid m -> forall n m1 s f fs hs, Alloc m m1 s -> nLoops m1 = bFill m1 -> 0 < fCap m1 ->
  exists m2 s2, new_spokes n m1 false f fs hs = Ok (m2, fs ++ map (fun i => fFill m1 + i) (zs 0 n), hs ++ map (fun i => heFill m1 + 2 * i) (zs 0 n)) /\
    Alloc m m2 s2 /\ vHalfedge m2 = vHalfedge m1 /\ 
    (nHalfedges m2, nInterior m2, nEdges m2, nVertices m2, nFaces m2, nLoops m2) =
    (nHalfedges m1 + 2 * Z.of_nat n, nInterior m1 + 2 * Z.of_nat n, nEdges m1 + Z.of_nat n, nVertices m1, nFaces m1 + Z.of_nat n, nLoops m1) /\
    (heFill m2, eFill m2, vFill m2, fFill m2, bFill m2, vCap m2) =
    (heFill m1 + 2 * Z.of_nat n, eFill m1 + Z.of_nat n, vFill m1, fFill m1 + Z.of_nat n, bFill m1, vCap m1).
Proof.
  intros V. induction n as [|n IH]; intros m1 s f fs hs A NL FC.
  - exists m1, s. cbn. rewrite !app_nil_r. split; auto. split; auto. split; auto. split; repeat (apply (f_equal2 pair); [|lia]); lia.
  - cbn [new_spokes bind].
    destruct (getNewFace_alloc m m1 s V A FC NL) as (m2 & s2 & E2 & A2 & _ & Ar2 & _ & _ & Ct2 & F2).
    injection Ar2 as Y1 Y2 Y3. injection Ct2 as Y5 Y6 Y7 Y8 Y9 Y10. injection F2 as Y11 Y12 Y13 Y14 Y15 Y16 Y17 Y18.
    destruct (getNewEdgeTriple_alloc m m2 s2 false A2) as (m3 & E3 & A3 & Ar3 & _ & Ct3 & F3).
    injection Ar3 as X1 X2. injection Ct3 as X5 X6 X7 X8 X9 X10. injection F3 as X11 X12 X13 X14 X15 X16 X17.
    change (if false then 1 else 2) with 2 in X6.
    rewrite E2. cbn [bind]. rewrite E3. cbn [bind].
    assert (FC3 : 0 < fCap m3). { pose proof (st_f _ (al_st _ _ _ A3)) as K. pose proof (st_f _ (al_st _ _ _ A)) as K0. clear -K K0 X14 X15 Y14 Y15. lia. }
    destruct (IH m3 s2 f (fs ++ [fFill m1]) (hs ++ [heFill m2]) A3) as (m4 & s4 & E4 & A4 & Ar4 & Ct4 & F4); [congruence|exact FC3|].
    remember (2 * Z.of_nat n) as k2 eqn:K2.
    injection Ct4 as Z5 Z6 Z7 Z8 Z9 Z10. injection F4 as Z11 Z12 Z13 Z14 Z15 Z16.
    exists m4, s4. rewrite E4. split.
    + rewrite zs_S. cbn [map]. rewrite <- !app_assoc. cbn [app]. unfold zs. rewrite <- seq_shift, !map_map.
      apply (f_equal (@Ok _)). apply (f_equal2 pair); [apply (f_equal2 pair); [reflexivity|]|]; (apply (f_equal2 (@app Z)); [reflexivity|]); (apply (f_equal2 cons); [lia|]); apply map_ext; intros; lia.
    + split; [exact A4|]. split; [congruence|]. clear -K2 Z5 Z6 Z7 Z8 Z9 Z10 Z11 Z12 Z13 Z14 Z15 Z16 X5 X6 X7 X8 X9 X10 X11 X12 X13 X14 X15 X16 Y5 Y6 Y7 Y8 Y9 Y10 Y11 Y12 Y13 Y14 Y15 Y18.
      split; repeat (apply (f_equal2 pair); [|lia]); lia.
Qed.

(** effect of insertVertex; g is the mesh after growing storage, bs the halfedges of the face *)
Record SpEff (g m' : mesh) (f : Z) (bs : list Z) : Prop := {
  se_cnt : (nHalfedges m', nInterior m', nEdges m', nVertices m', nFaces m', nLoops m') =
           (nHalfedges g + 2 * zlen bs, nInterior g + 2 * zlen bs, nEdges g + zlen bs, nVertices g + 1, nFaces g + (zlen bs - 1), nLoops g);
  se_fill : (heFill m', eFill m', vFill m', fFill m', bFill m') = (heFill g + 2 * zlen bs, eFill g + zlen bs, vFill g + 1, fFill g + (zlen bs - 1), bFill g);
  se_cap : (heCap m', eCap m', vCap m', fCap m') = (heCap g, eCap g, vCap g, fCap g);
  se_lens : lens m' = lens g;
  se_nb : forall i, 0 <= i < zlen bs -> nx m' (getZ bs i) = spL (heFill g) i;
  se_nl : forall i, 0 <= i < zlen bs -> nx m' (spL (heFill g) i) = spT (heFill g) (zlen bs) i;
  se_nt : forall i, 0 <= i < zlen bs -> nx m' (spT (heFill g) (zlen bs) i) = getZ bs i;
  se_nx : forall h, 0 <= h < heFill g -> (forall i, 0 <= i < zlen bs -> h <> getZ bs i) -> nx m' h = nx g h;
  se_vl : forall i, 0 <= i < zlen bs -> ve m' (spL (heFill g) i) = ve g (nx g (getZ bs i));
  se_vt : forall i, 0 <= i < zlen bs -> ve m' (spT (heFill g) (zlen bs) i) = vFill g;
  se_ve : forall h, 0 <= h < heFill g -> ve m' h = ve g h;
  se_fb : forall i, 0 <= i < zlen bs -> fa m' (getZ bs i) = spF (fFill g) f i;
  se_fl : forall i, 0 <= i < zlen bs -> fa m' (spL (heFill g) i) = spF (fFill g) f i;
  se_ft : forall i, 0 <= i < zlen bs -> fa m' (spT (heFill g) (zlen bs) i) = spF (fFill g) f i;
  se_fa : forall h, 0 <= h < heFill g -> (forall i, 0 <= i < zlen bs -> h <> getZ bs i) -> fa m' h = fa g h;
  se_fh : forall i, 0 <= i < zlen bs -> fh m' (spF (fFill g) f i) = getZ bs i;
  se_fo : forall k, (forall i, 0 <= i < zlen bs -> k <> spF (fFill g) f i) -> fh m' k = fh g k;
  se_vc : vh m' (vFill g) = spT (heFill g) (zlen bs) 0;
  se_vh : forall v, v <> vFill g -> vh m' v = vh g v }.

Lemma countb_tail p n k : 0 <= n -> 0 <= k -> (forall i, n <= i < n + k -> p i = true) -> countb p (n + k) = countb p n + k.
Proof.
  intros Hn Hk. pattern k. apply Z_ind_nonneg; [intros; rewrite !Z.add_0_r; auto| |exact Hk]. clear k Hk. intros k Hk IH H.
  rewrite Z.add_assoc, countb_S by lia. rewrite IH by (intros; apply H; lia). rewrite (H (n + k)) by lia. cbn [b2z]. lia.
Qed.

Section SpValid.
Context (g m' : mesh) (f : Z) (bs : list Z) (V : Valid g).
Context (Hf : 0 <= f < fFill g) (Hbs : bs <> []) (Cb : chain (nx g) (fh g f) bs (fh g f)) (NDb : NoDup bs).
Context (CM : forall x, In x bs <-> liveH g x /\ fa g x = f).
Context (Room : heFill g + 2 * zlen bs <= heCap g /\ fFill g + (zlen bs - 1) + bFill g <= fCap g /\ vFill g + 1 <= vCap g).
Context (E : SpEff g m' f bs).
Notation N := (heFill g). Notation F := (fFill g). Notation c := (vFill g). Notation d := (zlen bs).
Notation L := (spL N). Notation T := (spT N d). Notation FF := (spF F f). Notation b := (getZ bs).

Lemma sp_d : 0 < d.
Proof. clear -Hbs. unfold zlen. destruct bs; [congruence|]. cbn [length]. lia. Qed.
Lemma sp_prv i : 0 <= i < d -> 0 <= prvI d i < d.
Proof. clear. intros. unfold prvI. destruct (Z.eqb_spec i 0); lia. Qed.
Lemma sp_nxt i : 0 <= i < d -> 0 <= nxtI d i < d.
Proof. clear. intros. unfold nxtI. destruct (Z.eqb_spec i (d - 1)); lia. Qed.
Lemma sp_np i : 0 <= i < d -> nxtI d (prvI d i) = i.
Proof. clear. intros. unfold prvI, nxtI. destruct (Z.eqb_spec i 0); match goal with |- context [?x =? d - 1] => destruct (Z.eqb_spec x (d - 1)) end; lia. Qed.
Lemma sp_pn i : 0 <= i < d -> prvI d (nxtI d i) = i.
Proof. clear. intros. unfold prvI, nxtI. destruct (Z.eqb_spec i (d - 1)); match goal with |- context [?x =? 0] => destruct (Z.eqb_spec x 0) end; lia. Qed.
Lemma sp_ev : N mod 2 = 0 /\ 0 <= N.
Proof. destruct V as [[]]. clear -st_edge st_he. lia. Qed.
Lemma sp_TL i : 0 <= i < d -> tw (L i) = T (nxtI d i).
Proof. intros Hi. pose proof sp_ev. unfold spT. rewrite sp_pn by auto. rewrite tw_even; [reflexivity|]. clear -H. unfold spL. lia. Qed.
Lemma sp_TT i : 0 <= i < d -> tw (T i) = L (prvI d i).
Proof. intros Hi. rewrite <- (sp_np i Hi) at 1. rewrite <- sp_TL by (apply sp_prv; auto). apply tw_tw. Qed.
Lemma sp_bL i : 0 <= i < d -> liveH g (b i) /\ fa g (b i) = f.
Proof. intros Hi. apply CM, getZ_nth_In; auto. Qed.
Lemma sp_bR i : 0 <= i < d -> 0 <= b i < N.
Proof. intros Hi. apply (sp_bL i Hi). Qed.
Lemma sp_bnx i : 0 <= i < d -> nx g (b i) = b (nxtI d i).
Proof.
  intros Hi. unfold nxtI. destruct (Z.eqb_spec i (d - 1)) as [->|K].
  - rewrite getZ_last by auto. destruct (chain_last _ _ _ _ Hbs Cb) as [-> _]. symmetry. eapply getZ_0; eauto.
  - symmetry. eapply chain_getZ; [exact Cb| |]; clear -Hi K; lia.
Qed.
Lemma sp_new h : N <= h < N + 2 * d -> exists i, 0 <= i < d /\ (h = L i \/ h = T i).
Proof.
  intros Hh. pose proof sp_ev as [Ev _]. set (j := (h - N) / 2). assert (Hj : 0 <= j < d) by (clear -Hh; unfold j; lia).
  destruct (Z.eq_dec (h mod 2) 0) as [K|K].
  - exists j. split; auto. left. clear -K Ev Hh. unfold spL, j. lia.
  - exists (nxtI d j). split; [apply sp_nxt; auto|]. right. unfold spT. rewrite sp_pn by auto. clear -K Ev Hh. unfold j. lia.
Qed.
Lemma sp_notb h : ~ In h bs -> forall i, 0 <= i < d -> h <> b i.
Proof. intros H i Hi ->. apply H, getZ_nth_In; auto. Qed.
Lemma sp_LR i : 0 <= i < d -> N <= L i < N + 2 * d.
Proof. clear. unfold spL. lia. Qed.
Lemma sp_TR i : 0 <= i < d -> N <= T i < N + 2 * d.
Proof. intros Hi. pose proof (sp_prv i Hi). clear -H. unfold spT. lia. Qed.
Lemma sp_FR i : 0 <= i < d -> FF i = f \/ F <= FF i < F + (d - 1).
Proof. clear -Hf. intros. unfold spF. destruct (Z.eqb_spec i 0); lia. Qed.
Lemma sp_Finj i j : 0 <= i < d -> 0 <= j < d -> FF i = FF j -> i = j.
Proof. clear -Hf. intros Hi Hj. unfold spF. destruct (Z.eqb_spec i 0), (Z.eqb_spec j 0); lia. Qed.
Lemma sp_Tinj i j : 0 <= i < d -> 0 <= j < d -> T i = T j -> i = j.
Proof. clear. intros Hi Hj. unfold spT, prvI. destruct (Z.eqb_spec i 0), (Z.eqb_spec j 0); lia. Qed.
Lemma sp_LT i j : L i <> T j.
Proof. clear. unfold spT, spL. lia. Qed.

Lemma sp_live h : liveH m' h <-> liveH g h \/ N <= h < N + 2 * d.
Proof.
  destruct E as [Cn Fl Cp Le NB NL NT NO VL VT VO FB FL FT FO HH HO HC HV]. pose proof (f_equal (fun x => fst (fst (fst (fst x)))) Fl) as F1; cbn [fst] in F1.
  pose proof sp_ev as [_ HN]. unfold liveH. rewrite F1. split.
  - intros [K1 K2]. destruct (Z_lt_le_dec h N) as [K|K]; [|right; clear -K K1; lia]. left. assert (Kh : 0 <= h < N) by (clear -K K1; lia). split; auto.
    destruct (in_dec Z.eq_dec h bs) as [I|I]; [apply CM in I; apply I|]. rewrite NO in K2; auto. apply sp_notb; auto.
  - intros [K|K].
    + split; [pose proof sp_d as Hd; clear -K Hd; lia|]. destruct (in_dec Z.eq_dec h bs) as [I|I].
      * destruct (In_getZ _ _ I) as (i & Hi & <-). rewrite NB by auto. pose proof (sp_LR i Hi). clear -H HN. lia.
      * rewrite NO; [apply K|apply K|apply sp_notb; auto].
    + split; [clear -K HN; lia|]. destruct (sp_new h K) as (i & Hi & [->| ->]).
      * rewrite NL by auto. pose proof (sp_TR i Hi). clear -H HN. lia.
      * rewrite NT by auto. pose proof (sp_bR i Hi). clear -H. lia.
Qed.
Lemma sp_kind h : liveH m' h -> (liveH g h /\ ~ In h bs /\ nx m' h = nx g h /\ fa m' h = fa g h) \/ exists i, 0 <= i < d /\ (h = b i \/ h = L i \/ h = T i).
Proof.
  intros Hh. apply sp_live in Hh as [K|K].
  - destruct (in_dec Z.eq_dec h bs) as [I|I]; [right|left].
    + destruct (In_getZ _ _ I) as (i & Hi & <-). eauto.
    + split; auto. split; auto. pose proof (sp_notb h I) as NI. split; [apply (se_nx _ _ _ _ E)|apply (se_fa _ _ _ _ E)]; auto; apply K.
  - right. destruct (sp_new h K) as (i & Hi & [->| ->]); eauto.
Qed.

Lemma sp_valid : Valid m'.
Proof.
  destruct V as [ST CT CN SG]. pose proof sp_ev as [Ev HN]. pose proof sp_d as Hd.
  pose proof sp_live as LH. pose proof sp_kind as KD.
  destruct E as [Cn Fl Cp Le NB NL NT NO VL VT VO FB FL FT FO HH HO HC HV].
  remember (2 * d) as xx eqn:Exx in Cn, Fl.
  injection Cn as D1 D2 D3 D4 D5 D6. injection Fl as F1 F2 F3 F4 F5. injection Cp as P1 P2 P3 P4. subst xx.
  unfold lens in Le. injection Le as Z1 Z2 Z3 Z4 Z5. destruct Room as (Rm1 & Rm2 & Rm3).
  destruct ST as [T1 T2 T3 T4 T5 T6 T7 T8 T9].
  assert (LR : forall h, liveH g h -> 0 <= h < N) by (intros h [K _]; exact K).
  assert (LHo : forall h, liveH g h -> liveH m' h) by (intros; apply LH; auto).
  assert (Lb : forall i, 0 <= i < d -> liveH m' (b i)) by (intros i Hi; apply LHo, sp_bL; auto).
  assert (LL : forall i, 0 <= i < d -> liveH m' (L i)) by (intros i Hi; apply LH; right; apply sp_LR; auto).
  assert (LT : forall i, 0 <= i < d -> liveH m' (T i)) by (intros i Hi; apply LH; right; apply sp_TR; auto).
  assert (Lg : forall i, 0 <= i < d -> liveH g (b i)) by (intros i Hi; apply sp_bL; auto).
  assert (Fg : forall i, 0 <= i < d -> fa g (b i) = f) by (intros i Hi; apply sp_bL; auto).
  assert (I0 : 0 <= 0 < d) by (clear -Hd; lia).
  assert (LV : forall v, liveV m' v <-> liveV g v \/ v = c).
  { intros v. unfold liveV. rewrite F3. destruct (Z.eq_dec v c) as [->|K].
    - rewrite HC. split; auto. intros _. pose proof (sp_TR 0 I0). clear -H HN T8. lia.
    - rewrite HV by auto. split; [intros [K1 K2]; left; split; auto; clear -K K1; lia|]. intros [[K1 K2]|K1]; [split; auto; clear -K1; lia|contradiction]. }
  assert (FHf : liveFL g f) by (rewrite <- (Fg 0 I0); apply CN; auto).
  assert (NF : forall k, (forall i, 0 <= i < d -> k <> FF i) <-> k <> f /\ ~ (F <= k < F + (d - 1))).
  { intros k. split.
    - intros K. split; [intros ->; apply (K 0 I0); unfold spF; reflexivity|]. intros Kr. apply (K (k - F + 1)); [clear -Kr; lia|]. unfold spF. rewrite (proj2 (Z.eqb_neq (k - F + 1) 0)) by (clear -Kr; lia). clear; lia.
    - intros [K1 K2] i Hi ->. destruct (sp_FR i Hi); auto. }
  assert (IF : forall k, F <= k < F + (d - 1) -> exists i, 0 <= i < d /\ k = FF i).
  { intros k Kr. exists (k - F + 1). split; [clear -Kr; lia|]. unfold spF. rewrite (proj2 (Z.eqb_neq (k - F + 1) 0)) by (clear -Kr; lia). clear; lia. }
  assert (If : f = FF 0) by reflexivity.
  assert (FHl : forall k, (exists i, 0 <= i < d /\ k = FF i) -> fh m' k <> -1).
  { intros k (i & Hi & ->). rewrite HH by auto. pose proof (sp_bR i Hi). clear -H. lia. }
  assert (LFf : forall k, liveF m' k <-> (liveF g k \/ F <= k < F + (d - 1))).
  { intros k. unfold liveF. rewrite F4. destruct (Z.eq_dec k f) as [->|Kf].
    - split; [left; split; auto; destruct FHf as [[_ K]|[_ K]]; exact K|]. intros _. split; [clear -Hf Hd; lia|]. apply FHl. exists 0. auto.
    - split.
      + intros [K1 K2]. destruct (Z_lt_le_dec k F) as [K|K]; [|right; clear -K K1; lia]. left. split; [clear -K K1; lia|]. rewrite HO in K2; auto. apply NF. split; auto. clear -K. lia.
      + intros [[K1 K2]|K]; [|split; [clear -K T9; lia|apply FHl, IF; auto]]. split; [clear -K1 Hd; lia|]. rewrite HO; auto. apply NF. split; auto. clear -K1; lia. }
  assert (NFL : forall k, F + (d - 1) <= k -> forall i, 0 <= i < d -> k <> FF i) by (intros k K; apply NF; clear -K Hf Hd; lia).
  assert (LFl : forall k, liveL m' k <-> liveL g k).
  { intros k. unfold liveL. rewrite F5, P4. split; intros [K1 K2]; (split; [exact K1|]); [rewrite <- HO|rewrite HO]; auto; apply NFL; clear -K1 Rm2; lia. }
  assert (LF : forall k, liveFL m' k <-> (liveFL g k \/ F <= k < F + (d - 1))). { intros k. unfold liveFL. rewrite LFf, LFl. tauto. }
  assert (FFl : forall i, 0 <= i < d -> liveFL m' (FF i)). { intros i Hi. apply LF. destruct (sp_FR i Hi) as [->|K]; auto. }
  assert (Fold : forall h, liveH g h -> ~ In h bs -> forall i, 0 <= i < d -> fa g h <> FF i).
  { intros h Hh Hn. apply NF. split; [intros K; apply Hn, CM; auto|]. intros K. destruct (cn_fa _ CN _ Hh) as [[K1 _]|[K1 _]]; clear -K K1 Rm2; lia. }
  assert (TWo : forall h, liveH g h -> liveH g (tw h)) by (apply CN).
  assert (VOl : forall h, liveH g h -> ve m' h = ve g h) by (intros; apply VO; auto).
  assert (INJ : forall x y, liveH g x -> liveH g y -> nx g x = nx g y -> x = y) by (apply CN).
  assert (NBs : forall h, liveH g h -> ~ In h bs -> liveH g (nx g h) /\ ~ In (nx g h) bs).
  { intros h Hh Hn. split; [apply CN; auto|]. intros K. apply Hn, CM. split; auto. apply CM in K as [_ K]. rewrite (cn_fnx _ CN) in K; auto. }
  assert (CTW : forall h, liveH m' h -> liveH m' (tw h)).
  { intros h Hh. apply LH in Hh as [K|K]; [auto|]. destruct (sp_new h K) as (i & Hi & [->| ->]).
    - rewrite sp_TL by auto. apply LT, sp_nxt; auto.
    - rewrite sp_TT by auto. apply LL, sp_prv; auto. }
  assert (CNX : forall h, liveH m' h -> liveH m' (nx m' h)).
  { intros h Hh. destruct (KD h Hh) as [(K1 & K2 & -> & _)|(i & Hi & [->|[->| ->]])]; [apply LHo, CN; auto|rewrite NB|rewrite NL|rewrite NT]; auto. }
  assert (CINJ : forall x y, liveH m' x -> liveH m' y -> nx m' x = nx m' y -> x = y).
  { assert (X : forall x y, liveH g x /\ ~ In x bs /\ nx m' x = nx g x /\ fa m' x = fa g x -> (exists i, 0 <= i < d /\ (y = b i \/ y = L i \/ y = T i)) -> nx m' x <> nx m' y).
    { intros x y (K1 & K2 & -> & _) (j & Hj & Ky). destruct (NBs x K1 K2) as [G1 G2]. pose proof (LR _ G1) as G3. destruct Ky as [->|[->| ->]].
      - rewrite NB by auto. pose proof (sp_LR j Hj). clear -G3 H. lia.
      - rewrite NL by auto. pose proof (sp_TR j Hj). clear -G3 H. lia.
      - rewrite NT by auto. apply sp_notb; auto. }
    intros x y Hx Hy. destruct (KD x Hx) as [K|K]; destruct (KD y Hy) as [K'|K'].
    - destruct K as (K1 & _ & -> & _), K' as (K1' & _ & -> & _). auto.
    - intros Exy. exfalso. eapply X; eauto.
    - intros Exy. exfalso. eapply X; eauto.
    - destruct K as (i & Hi & Kx), K' as (j & Hj & Ky). pose proof (sp_LR i Hi) as U1. pose proof (sp_TR i Hi) as U2. pose proof (sp_bR i Hi) as U3. pose proof (sp_LR j Hj) as W1. pose proof (sp_TR j Hj) as W2. pose proof (sp_bR j Hj) as W3.
      pose proof (sp_LT i j) as X1. pose proof (sp_LT j i) as X2.
      destruct Kx as [->|[->| ->]]; destruct Ky as [->|[->| ->]]; rewrite ?NB, ?NL, ?NT by auto; intros Exy; try (exfalso; congruence); try (exfalso; clear -Exy U1 U2 U3 W1 W2 W3; lia).
      + assert (i = j) as -> by (clear -Exy; unfold spL in Exy; lia). reflexivity.
      + assert (i = j) as -> by (apply sp_Tinj; auto). reflexivity.
      + assert (i = j) as -> by (apply (getZ_inj bs); auto). reflexivity. }
  assert (RB : forall x, liveH m' x -> 0 <= x < heFill m') by (intros x [K _]; exact K).
  assert (CRL : forall h, liveH m' h -> liveH m' (ro m' h)) by (intros; apply CNX, CTW; auto).
  assert (CRI : forall x y, liveH m' x -> liveH m' y -> ro m' x = ro m' y -> x = y).
  { intros x y Hx Hy K. apply tw_inj. apply CINJ; auto. }
  assert (VLb : forall i, 0 <= i < d -> ve m' (L i) = ve g (b (nxtI d i))) by (intros i Hi; rewrite VL, sp_bnx by auto; reflexivity).
  assert (Xold : forall h, liveH g h -> (ext g h -> F + (d - 1) <= fa g h)).
  { intros h Hh Kx. unfold ext in Kx. destruct (cn_fa _ CN _ Hh) as [[K1 _]|[K1 _]]; clear -Kx K1 Rm2; lia. }
  split.
  - split; try (clear -Hd Z1 Z2 Z3 Z4 Z5 F1 F2 F3 F4 F5 P1 P2 P3 P4 T1 T2 T3 T4 T5 T6 T7 T8 T9 Rm1 Rm2 Rm3; lia).
  - destruct CT as [G1 G2 G3 G4 G5 G6].
    assert (LB1 : forall h, 0 <= h < N -> liveHb m' h = liveHb g h).
    { intros h Hh. unfold liveHb. f_equal. destruct (in_dec Z.eq_dec h bs) as [I|I].
      - destruct (In_getZ _ _ I) as (i & Hi & <-). rewrite NB, sp_bnx by auto. pose proof (sp_LR i Hi). pose proof (sp_bR _ (sp_nxt i Hi)). clear -H H0 HN. lia.
      - rewrite NO by (auto using sp_notb). reflexivity. }
    assert (LB2 : forall h, N <= h < N + 2 * d -> liveHb m' h = true).
    { intros h Hh. assert (K : liveH m' h) by (apply LH; auto). destruct K as [_ K]. unfold liveHb. clear -K. lia. }
    split.
    + rewrite D1, F1, G1. rewrite countb_tail; [|exact HN|clear -Hd; lia|exact LB2]. f_equal. symmetry. apply countb_ext; auto.
    + rewrite D2, F1, G2. rewrite countb_tail; [|exact HN|clear -Hd; lia|].
      * f_equal. apply countb_ext. intros h Hh. unfold intHb. rewrite LB1, F4 by auto. destruct (liveHb g h) eqn:Eb; auto. cbn [andb]. f_equal.
        assert (Hl : liveH g h) by (split; auto; unfold liveHb in Eb; clear -Eb; lia).
        destruct (in_dec Z.eq_dec h bs) as [I|I].
        -- destruct (In_getZ _ _ I) as (i & Hi & <-). rewrite FB, Fg by auto. pose proof (sp_FR i Hi). clear -H Hf Hd. lia.
        -- rewrite FO by (auto using sp_notb). pose proof (Xold h Hl) as K. unfold ext in K. clear -K Hd. lia.
      * intros h Hh. unfold intHb. rewrite LB2 by auto. cbn [andb]. destruct (sp_new h Hh) as (i & Hi & [->| ->]); [rewrite FL by auto|rewrite FT by auto]; rewrite F4; pose proof (sp_FR i Hi); clear -H Hf Hd; lia.
    + rewrite D3, F2, G3. rewrite countb_tail; [|clear -T6 T7; lia|clear -Hd; lia|].
      * f_equal. apply countb_ext. intros e He. symmetry. apply LB1. clear -T7 He. lia.
      * intros e He. apply LB2. destruct T7 as [T7 _]. clear -He T7. lia.
    + rewrite D4, F3, G4. rewrite countb_S by (clear -T8; lia). replace (liveVb m' c) with true by (unfold liveVb; rewrite HC; pose proof (sp_TR 0 I0); clear -H HN; lia). cbn [b2z]. f_equal.
      apply countb_ext. intros v Hv. unfold liveVb. rewrite HV; auto. clear -Hv. lia.
    + rewrite D5, F4, G5. rewrite countb_tail; [|clear -T9; lia|clear -Hd; lia|].
      * f_equal. apply countb_ext. intros k Hk. unfold liveFb. destruct (Z.eq_dec k f) as [->|Kf].
        -- assert (K1 : fh m' f <> -1) by (apply FHl; exists 0; auto). assert (K2 : fh g f <> -1) by (destruct FHf as [[_ K]|[_ K]]; exact K). clear -K1 K2. lia.
        -- rewrite HO; auto. apply NF. split; auto. clear -Hk. lia.
      * intros k Hk. unfold liveFb. pose proof (FHl k (IF k Hk)) as K. clear -K. lia.
    + rewrite D6, F5, P4, G6. apply countb_ext. intros i Hi. unfold liveFb. rewrite HO; auto. apply NFL. clear -Hi Rm2. lia.
  - split; auto.
    + intros h Hh. apply LV. apply LH in Hh as [K|K]; [rewrite VOl by auto; left; apply CN; auto|].
      destruct (sp_new h K) as (i & Hi & [->| ->]); [rewrite VLb by auto; left; apply CN, Lg, sp_nxt; auto|rewrite VT by auto; auto].
    + intros h Hh. destruct (KD h Hh) as [(K1 & K2 & _ & ->)|(i & Hi & [->|[->| ->]])]; [apply LF; left; apply CN; auto|rewrite FB|rewrite FL|rewrite FT]; auto.
    + intros h Hh. destruct (KD h Hh) as [(K1 & K2 & -> & _)|(i & Hi & [->|[->| ->]])].
      * rewrite !VOl by (auto; apply CN; auto). apply (cn_vnx _ CN); auto.
      * rewrite NB, VLb, VOl by (auto; apply TWo; auto). rewrite <- (cn_vnx _ CN) by auto. rewrite sp_bnx; auto.
      * rewrite NL, VT, sp_TL, VT; auto. apply sp_nxt; auto.
      * rewrite NT, VOl, sp_TT, VLb, sp_np by (auto; apply sp_prv; auto). reflexivity.
    + intros h Hh. destruct (KD h Hh) as [(K1 & K2 & -> & ->)|(i & Hi & [->|[->| ->]])].
      * destruct (NBs h K1 K2) as [G1 G2]. rewrite FO; [apply (cn_fnx _ CN); auto|apply LR; auto|apply sp_notb; auto].
      * rewrite NB, FL, FB; auto.
      * rewrite NL, FL, FT; auto.
      * rewrite NT, FT, FB; auto.
    + intros v Hv. destruct (Z.eq_dec v c) as [->|K]; [rewrite HC; auto|]. apply LV in Hv as [Hv|Hv]; [|contradiction]. rewrite HV by auto.
      destruct (cn_vh _ CN v Hv) as (K1 & K2). split; auto. rewrite VOl; auto.
    + intros k Hk. apply LF in Hk. assert (D : (exists i, 0 <= i < d /\ k = FF i) \/ (liveFL g k /\ k <> f /\ ~ (F <= k < F + (d - 1)))).
      { destruct (Z.eq_dec k f) as [->|Kf]; [left; exists 0; auto|]. assert (F <= k < F + (d - 1) \/ ~ (F <= k < F + (d - 1))) as [K|K] by (clear; lia); [left; auto|]. right. destruct Hk as [Hk|Hk]; [auto|contradiction]. }
      destruct D as [(i & Hi & ->)|(K1 & K2)]; [rewrite HH by auto; auto|]. rewrite HO by (apply NF; auto). destruct (cn_fh _ CN k K1) as (K3 & K4). split; auto.
      rewrite FO; auto. apply sp_notb. intros K. apply CM in K as [_ K]. destruct K2 as [K2 _]. congruence.
    + (* faces *)
      assert (TRI : forall i x y, 0 <= i < d -> (x = b i \/ x = L i \/ x = T i) -> (y = b i \/ y = L i \/ y = T i) -> reach (nx m') x y).
      { intros i x y Hi Kx Ky.
        assert (C3 : chain (nx m') (b i) [b i; L i; T i] (b i)) by (cbn; rewrite NB, NL, NT by auto; auto).
        eapply cycle_orbit; [exact C3| |]; cbn; destruct Kx as [->|[->| ->]], Ky as [->|[->| ->]]; auto. }
      assert (FK : forall i h, 0 <= i < d -> (h = b i \/ h = L i \/ h = T i) -> fa m' h = FF i) by (intros i h Hi [->|[->| ->]]; auto).
      intros x y Hx Hy Exy. destruct (KD x Hx) as [K|K]; destruct (KD y Hy) as [K'|K'].
      * destruct K as (K1 & K2 & _ & K3), K' as (K1' & K2' & _ & K3').
        apply (reach_ext (fun z => liveH g z /\ ~ In z bs)) with (f := nx g); auto; [| |apply CN; auto; congruence].
        -- intros z [Gz Fz]. apply NBs; auto.
        -- intros z [Gz Fz]. apply NO; auto using sp_notb.
      * exfalso. destruct K as (K1 & K2 & _ & K3), K' as (i & Hi & Ky). rewrite (FK i y), K3 in Exy by auto. eapply Fold; eauto.
      * exfalso. destruct K' as (K1 & K2 & _ & K3), K as (i & Hi & Ky). rewrite (FK i x), K3 in Exy by auto. eapply Fold; eauto.
      * destruct K as (i & Hi & Kx), K' as (j & Hj & Ky). rewrite (FK i x), (FK j y) in Exy by auto. apply sp_Finj in Exy; auto. subst j. eapply TRI; eauto.
    + (* vertices *)
      set (psi := fun h => if N <=? h then ro m' h else h).
      assert (QL : forall i, 0 <= i < d -> psi (L i) = b (nxtI d i)).
      { intros i Hi. unfold psi. rewrite (proj2 (Z.leb_le _ _)) by (apply sp_LR; auto). unfold ro. rewrite sp_TL, NT by (auto; apply sp_nxt; auto). reflexivity. }
      assert (QO : forall h, liveH g h -> psi h = h).
      { intros h K. apply LR in K. unfold psi. rewrite (proj2 (Z.leb_gt _ _)) by (clear -K; lia). reflexivity. }
      assert (CE : forall x y, liveH m' x -> nx m' (tw x) = y -> conn (liveH m') (ro m') x y) by (intros x y Hx <-; apply (conn_step (liveH m') (ro m')); auto).
      assert (CT0 : forall n, (Z.of_nat n < d) -> conn (liveH m') (ro m') (T (Z.of_nat n)) (T 0)).
      { induction n as [|n IH]; intros Hi; [apply conn_refl|]. eapply conn_trans; [|apply IH; clear -Hi; lia]. apply CE; [apply LT; clear -Hi; lia|].
        rewrite sp_TT by (clear -Hi; lia). rewrite NL by (apply sp_prv; clear -Hi; lia). unfold prvI. destruct (Z.eqb_spec (Z.of_nat (S n)) 0); [clear -e; lia|]. f_equal. clear. lia. }
      assert (CTc : forall i, 0 <= i < d -> conn (liveH m') (ro m') (T i) (T 0)).
      { intros i Hi. replace i with (Z.of_nat (Z.to_nat i)) by (clear -Hi; lia). apply CT0. clear -Hi. lia. }
      assert (KV : forall h, liveH m' h -> (exists i, 0 <= i < d /\ h = T i) \/ (ve m' h <> c /\ liveH g (psi h) /\ ve g (psi h) = ve m' h /\ conn (liveH m') (ro m') h (psi h))).
      { assert (NC : forall h, liveH g h -> ve g h <> c). { intros h Hh K. destruct (cn_ve _ CN _ Hh) as [K1 _]. clear -K K1. lia. }
        intros h Hh. pose proof Hh as Hh0. apply LH in Hh as [K|K].
        - right. rewrite VOl, QO by auto. split; [auto|]. split; [auto|]. split; [auto|apply conn_refl].
        - destruct (sp_new h K) as (i & Hi & [->| ->]); [|eauto]. right. assert (Hj := sp_nxt i Hi). rewrite VLb by auto. rewrite QL by auto.
          split; [auto|]. split; [auto|]. split; [auto|]. apply CE; auto. rewrite sp_TL, NT; auto. }
      apply orbit_transfer with (L := liveH g) (L' := liveH m') (f := ro g) (lab := ve g) (phi := fun h => h) (psi := psi) (N := heFill m'); auto.
      * intros; apply CN, CN; auto.
      * apply CN.
      * intros h Hh. unfold ro. assert (Lt := TWo _ Hh). destruct (in_dec Z.eq_dec (tw h) bs) as [I|I].
        -- destruct (In_getZ _ _ I) as (i & Hi & Ei). eapply conn_trans; [apply (CE h (L i)); auto; rewrite <- Ei; auto|]. rewrite <- Ei, sp_bnx by auto. apply CE; auto. rewrite sp_TL, NT; auto. apply sp_nxt; auto.
        -- apply CE; auto. apply NO; auto using sp_notb.
      * intros x y Hx Hy Exy. destruct (KV x Hx) as [(i & Hi & ->)|(K1 & K2 & K3 & K4)]; destruct (KV y Hy) as [(j & Hj & ->)|(K1' & K2' & K3' & K4')].
        -- left. eapply conn_trans; [apply CTc; auto|apply conn_sym, CTc; auto].
        -- exfalso. apply K1'. rewrite <- Exy. auto.
        -- exfalso. apply K1. rewrite Exy. auto.
        -- right. rewrite K3, K3'. auto.
    + intros h Hh Hm. unfold ext. rewrite F4. destruct (KD h Hh) as [(K1 & K2 & _ & ->)|(i & Hi & K)].
      * pose proof (cn_ebd _ CN h K1 Hm) as Kx. unfold ext in Kx. clear -Kx Hd. lia.
      * assert (fa m' h = FF i) as -> by (destruct K as [->|[->| ->]]; auto). pose proof (sp_FR i Hi). clear -H Hf Hd. lia.
    + intros h Hh Hx. unfold ext in Hx. rewrite F4 in Hx. destruct (KD _ (CTW _ Hh)) as [(K1 & K2 & _ & K3)|(i & Hi & K)].
      * assert (Hg : liveH g h) by (rewrite <- (tw_tw h); apply TWo; auto). rewrite VOl by auto. rewrite HV.
        -- apply (cn_vbd _ CN); auto. unfold ext. rewrite K3 in Hx. clear -Hx Hd. lia.
        -- intros K. destruct (cn_ve _ CN _ Hg) as [K4 _]. clear -K K4. lia.
      * exfalso. assert (Ef : fa m' (tw h) = FF i) by (destruct K as [->|[->| ->]]; auto). rewrite Ef in Hx. pose proof (sp_FR i Hi). clear -H Hf Hx Hd. lia.
  - destruct SG as [G1 G2]. split; rewrite F1, ?F3, ?F4, ?F5, ?P3, ?P4.
    + intros v Hv. rewrite HV by (clear -Hv; lia). assert (K := G1 v ltac:(clear -Hv; lia)). clear -K HN Hd. lia.
    + intros k Hk. rewrite HO.
      * assert (K := G2 k ltac:(clear -Hk Hd; lia)). clear -K HN Hd. lia.
      * intros i Hi ->. destruct (sp_FR i Hi) as [K|K]; clear -K Hk Hf Hd; lia.
Qed.
End SpValid.

Lemma faceHalfedges_alloc m m1 s f l : Valid m -> Alloc m m1 s -> liveF m f -> faceHalfedges m f = Ok l -> faceHalfedges m1 f = Ok l.
Proof.
  intros V A Lf El. pose proof (reset_valid m m1 s V A) as VG.
  destruct (faceHalfedges_ok m V f (or_introl Lf)) as (l0 & E0 & H0 & C0 & N0 & M0). rewrite El in E0. injection E0 as <-.
  assert (LfG : liveF (reset m1 m) f) by (apply (reset_liveF m m1 s A); auto).
  destruct (faceHalfedges_ok _ VG f (or_introl LfG)) as (l1 & E1 & H1 & C1 & N1 & M1).
  change (faceHalfedges m1 f) with (faceHalfedges (reset m1 m) f). rewrite E1. f_equal.
  assert (FHe : fh (reset m1 m) f = fh m f) by (apply (al_fh _ _ _ A); apply Lf). rewrite FHe in C1.
  apply (cycle_uniq (nx m) (fh m f)); auto. eapply chain_ext; [|exact C1]. intros x Hx. apply M1 in Hx as [Hx _]. apply (reset_liveH m m1 s A) in Hx. apply (reset_nx m m1 s A). apply Hx.
Qed.

Lemma zs_snoc k : zs 0 (S k) = zs 0 k ++ [Z.of_nat k].
Proof. unfold zs. rewrite seq_S, map_app. reflexivity. Qed.

Lemma insertVertex_run m f bs : Valid m -> NoDeadLoops m -> liveF m f -> faceHalfedges m f = Ok bs ->
  exists m3 s m', insertVertex m f = Ok (m', vFill m) /\ Alloc m m3 s /\
    heFill m + 2 * zlen bs <= heCap m3 /\ fFill m + (zlen bs - 1) + bFill m <= fCap m3 /\ vFill m + 1 <= vCap m3 /\ SpEff (reset m3 m) m' f bs.
Proof.
  intros V ND0 Lf El. pose proof (va_st _ V) as ST. pose proof (va_cn _ V) as CN.
  destruct (faceHalfedges_ok m V f (or_introl Lf)) as (l0 & E0 & Hbs & C0 & NDb & CM). rewrite El in E0. injection E0 as <-.
  assert (VC : 0 < vCap m). { destruct (cn_fh _ CN f (or_introl Lf)) as [K _]. apply (cn_ve _ CN) in K as [K _]. pose proof (st_v _ ST) as K2. clear -K K2. lia. }
  assert (FC : 0 < fCap m). { pose proof (st_f _ ST) as K2. destruct Lf as [K _]. clear -K K2. lia. }
  destruct (getNewVertex_alloc m m 0 (alloc_refl m ST (va_sl _ V)) VC) as (m1 & E1 & A1 & Ar1 & _ & Ct1 & F1).
  injection Ar1 as W1 W2 W3 W4. injection Ct1 as W5 W6 W7 W8 W9 W10. injection F1 as W11 W12 W13 W14 W15 W16 W17 W18.
  unfold insertVertex. rewrite E1. rewrite (faceHalfedges_alloc m m1 0 f bs V A1 Lf El). cbn [bind].
  destruct (length bs) as [|k] eqn:Elen; [destruct bs; [congruence|discriminate]|]. cbn [new_spokes bind].
  destruct (getNewEdgeTriple_alloc m m1 0 false A1) as (m2 & E2 & A2 & Ar2 & _ & Ct2 & F2).
  injection Ar2 as X1 X2. injection Ct2 as X5 X6 X7 X8 X9 X10. injection F2 as X11 X12 X13 X14 X15 X16 X17. change (if false then 1 else 2) with 2 in X6.
  rewrite E2. cbn [bind app].
  destruct (spokes_run m V k m2 0 f [f] [heFill m1] A2) as (m3 & s & E3 & A3 & Ar3 & Ct3 & F3); [rewrite X10, X15, W10, W15; exact ND0|rewrite X17, W18; exact FC|].
  remember (2 * Z.of_nat k) as k2 eqn:K2. injection Ct3 as Y5 Y6 Y7 Y8 Y9 Y10. injection F3 as Y11 Y12 Y13 Y14 Y15 Y16. rewrite E3. cbn [bind].
  rewrite (faceHalfedges_alloc m m3 s f bs V A3 Lf El). cbn [bind].
  assert (Ed : zlen bs = Z.of_nat k + 1) by (unfold zlen; clear -Elen; lia).
  assert (Efs : [f] ++ map (fun i => fFill m2 + i) (zs 0 k) = map (spF (fFill m) f) (zs 0 (S k))).
  { rewrite zs_S. cbn [map app]. unfold spF at 1. cbn [Z.of_nat Z.eqb]. f_equal. unfold zs. rewrite <- seq_shift, !map_map. apply map_ext. intros i. unfold spF.
    rewrite (proj2 (Z.eqb_neq (Z.of_nat (S i)) 0)) by (clear; lia). clear -X14 W14. lia. }
  assert (Els : [heFill m1] ++ map (fun i => heFill m2 + 2 * i) (zs 0 k) = map (spL (heFill m)) (zs 0 (S k))).
  { rewrite zs_S. cbn [map app]. f_equal; [unfold spL; clear -W11; lia|]. unfold zs. rewrite <- seq_shift, !map_map. apply map_ext. intros i. unfold spL. clear -X11 W11. lia. }
  rewrite Efs, Els.
  assert (Et : tw (last (map (spL (heFill m)) (zs 0 (S k))) INVALID) = spT (heFill m) (zlen bs) 0).
  { rewrite zs_snoc, map_app. cbn [map]. rewrite last_last. destruct (st_edge _ ST) as [K _]. rewrite tw_even by (unfold spL; clear -K; lia). unfold spL, spT, prvI. rewrite Z.eqb_refl. clear -Ed. lia. }
  rewrite Et.
  pose proof (al_st _ _ _ A3) as [T1 T2 T3 T4 T5 T6 T7 T8 T9].
  assert (Ebs : bs = map (getZ bs) (zs 0 (S k))) by (rewrite <- Elen; symmetry; apply map_getZ).
  assert (R1 : heFill m + 2 * zlen bs <= heCap m3) by (clear -T6 Y11 X11 W11 Ed K2; lia).
  assert (R2 : fFill m + (zlen bs - 1) + bFill m <= fCap m3) by (clear -T9 Y14 Y15 X14 X15 W14 W15 Ed; lia).
  assert (R3 : vFill m + 1 <= vCap m3) by (clear -T8 Y13 X13 W13; lia).
  assert (LB : forall i, 0 <= i < zlen bs -> liveH m (getZ bs i)) by (intros i Hi; apply CM, getZ_nth_In; auto).
  assert (Q1 : 0 <= heFill m) by apply (st_he _ ST). assert (Q2 : heFill m mod 2 = 0) by (destruct (st_edge _ ST) as [K _]; clear -K; lia).
  assert (Q3 : forall i, 0 <= i < zlen bs -> 0 <= getZ bs i < heFill m) by (intros i Hi; apply LB; auto).
  assert (Q4 : heFill m + 2 * zlen bs <= zlen (heNext m3)) by (clear -T1 R1; lia). assert (Q5 : heFill m + 2 * zlen bs <= zlen (heVertex m3)) by (clear -T2 R1; lia).
  assert (Q6 : heFill m + 2 * zlen bs <= zlen (heFace m3)) by (clear -T3 R1; lia). assert (Q7 : 0 <= f < fFill m) by apply Lf.
  assert (Q8 : fFill m + zlen bs - 1 <= zlen (fHalfedge m3)) by (destruct ST; clear -T5 R2 st_f; lia).
  assert (Q9 : forall i, 0 <= i < zlen bs -> 0 <= nx m3 (getZ bs i) < heFill m).
  { intros i Hi. pose proof (LB i Hi) as K. rewrite (al_nx _ _ _ A3) by apply K. apply (cn_nx _ CN) in K. apply K. }
  destruct (hook_run m3 (heFill m) (fFill m) f (vFill m) bs Q1 Q2 NDb Q3 Q4 Q5 Q6 Q7 Q8 Q9 (S k) O m3 (spT (heFill m) (zlen bs) 0)) as (mk & Ek & HK).
  - apply hook_init; auto.
  - clear -Ed. lia.
  - reflexivity.
  - rewrite <- Ebs in Ek. rewrite Ek. cbn [bind]. destruct HK as [(A & B & C & D & Em & ZA & ZB & ZC & ZD) NB NL NT NO VL VT VO FB FL FT FO HH HO].
    assert (ZV : zlen (vHalfedge mk) = vCap m3) by (rewrite Em; exact T4).
    assert (RV : 0 <= vFill m < zlen (vHalfedge mk)) by (destruct ST; clear -ZV R3 st_v; lia).
    rewrite setVHe_ok by exact RV. cbn [bind].
    exists m3, s, (with_vhe mk (vFill m) (spT (heFill m) (zlen bs) 0)). split; [reflexivity|]. split; [exact A3|]. split; [exact R1|]. split; [exact R2|]. split; [exact R3|].
    constructor; auto.
    + proj. rewrite Em. unfold reset. proj. clear -Y5 Y6 Y7 Y8 Y9 Y10 X5 X6 X7 X8 X9 X10 W5 W6 W7 W8 W9 W10 Ed K2. repeat (apply (f_equal2 pair); [|lia]). lia.
    + proj. rewrite Em. unfold reset. proj. clear -Y11 Y12 Y13 Y14 Y15 X11 X12 X13 X14 X15 W11 W12 W13 W14 W15 Ed K2. repeat (apply (f_equal2 pair); [|lia]). lia.
    + proj. rewrite Em. reflexivity.
    + unfold lens. proj. rewrite zlen_updZ, Em. unfold reset. proj. rewrite ZA, ZB, ZC, ZD. reflexivity.
    + rewrite vh_wvhe by exact RV. change (vFill (reset m3 m)) with (vFill m). rewrite Z.eqb_refl. reflexivity.
    + intros v Hv. rewrite vh_wvhe by exact RV. change (vFill (reset m3 m)) with (vFill m) in Hv. rewrite (proj2 (Z.eqb_neq _ _) Hv). rewrite Em. reflexivity.
Qed.

(** insertVertex relative to the mesh before the call; hs lists the halfedges of the face in order *)
Lemma insert_vertex_spec m f hs : Valid m -> NoDeadLoops m -> liveF m f -> hs <> [] -> chain (nx m) (fh m f) hs (fh m f) -> NoDup hs ->
  let c := vFill m in let d := Z.of_nat (length hs) in
  exists m', insertVertex m f = Ok (m', c) /\ Valid m' /\ NoDeadLoops m' /\
    nVertices m' = nVertices m + 1 /\ nEdges m' = nEdges m + d /\ nHalfedges m' = nHalfedges m + 2 * d /\ nInterior m' = nInterior m + 2 * d /\
    nFaces m' = nFaces m + (d - 1) /\ nLoops m' = nLoops m /\
    ~ liveV m c /\ (forall v, liveV m' v <-> liveV m v \/ v = c) /\
    (forall h, liveH m' h <-> liveH m h \/ heFill m <= h < heFill m + 2 * d) /\
    (forall g, liveF m' g <-> liveF m g \/ fFill m <= g < fFill m + (d - 1)) /\ (forall i, liveBL m' i <-> liveBL m i) /\
    (forall h, liveH m h -> ve m' h = ve m h) /\
    (forall h, liveH m h -> ~ In h hs -> nx m' h = nx m h /\ side m' h = side m h) /\
    (* each old halfedge of the face bounds a triangle whose other two halfedges are new and meet at the new vertex; neighbouring triangles share a spoke *)
    (forall h, In h hs -> exists x y, nx m' h = x /\ nx m' x = y /\ nx m' y = h /\ ~ liveH m x /\ ~ liveH m y /\ x <> y /\
       ve m' x = ve m (tw h) /\ ve m' y = c /\ ~ ext m' h /\ nx m' (tw x) = nx m h) /\
    side m' (fh m f) = FaceSide f /\
    (* the halfedges leaving the new vertex: one per old halfedge *)
    (exists l, NoDup l /\ length l = length hs /\ (forall h, In h l <-> liveH m' h /\ ve m' h = c) /\ map (nx m') l = hs) /\
    (forall v, liveV m v -> vh m' v = vh m v) /\
    heFill m' = heFill m + 2 * d /\ vFill m' = vFill m + 1 /\ fFill m' = fFill m + (d - 1) /\ bFill m' = bFill m.
Proof.
  intros V ND0 Lf Hbs Cb NDb c d. pose proof (va_st _ V) as ST. pose proof (va_cn _ V) as CN.
  destruct (faceHalfedges_ok m V f (or_introl Lf)) as (l0 & El & H0 & C0 & N0 & CM).
  assert (l0 = hs) as -> by (apply (cycle_uniq (nx m) (fh m f)); auto). clear H0 C0 N0.
  destruct (insertVertex_run m f hs V ND0 Lf El) as (m3 & s & m' & R & A & R1 & R2 & R3 & E).
  pose proof (reset_valid m m3 s V A) as VG. set (g := reset m3 m) in *.
  assert (LG : forall h, liveH g h <-> liveH m h) by (apply (reset_liveH m m3 s A)).
  assert (NG : forall h, liveH m h -> nx g h = nx m h) by (intros h [K _]; apply (reset_nx m m3 s A); auto).
  assert (WG : forall h, liveH m h -> ve g h = ve m h) by (intros h [K _]; apply (reset_ve m m3 s A); auto).
  assert (FG : forall h, liveH m h -> (fa g h = f <-> fa m h = f)).
  { intros h Hh. unfold g. rewrite (reset_fa m m3 s A) by auto. destruct Lf as [K _]. pose proof (al_s _ _ _ A) as Ks. clear -K Ks. destruct (Z.leb_spec (fFill m) (fa m h)); lia. }
  assert (Hf : 0 <= f < fFill g) by apply Lf.
  assert (Cg : chain (nx g) (fh g f) hs (fh g f)).
  { replace (fh g f) with (fh m f) by (symmetry; apply (al_fh _ _ _ A); apply Lf). eapply chain_ext; [|exact Cb]. intros x Hx. symmetry. apply NG. apply CM; auto. }
  assert (CMg : forall x, In x hs <-> liveH g x /\ fa g x = f).
  { intros x. rewrite CM, LG. split; intros [K1 K2]; (split; [auto|]); apply FG; auto. }
  assert (V' : Valid m') by (apply (sp_valid g m' f hs); auto).
  assert (Rm := conj R1 (conj R2 R3)).
  assert (KD := sp_kind g m' f hs VG Hbs CMg E). assert (LH := sp_live g m' f hs VG Hbs CMg E).
  assert (Dz : zlen hs = d) by reflexivity. pose proof (sp_d hs Hbs) as Hd.
  destruct E as [Cn Fl Cp Le NB NL NT NO VL VT VO FB FL FT FO HH HO HC HV].
  remember (2 * zlen hs) as xx eqn:Exx in Cn, Fl. injection Cn as D1 D2 D3 D4 D5 D6. injection Fl as F1 F2 F3 F4 F5. injection Cp as P1 P2 P3 P4. subst xx.
  change (heFill g) with (heFill m) in *. change (fFill g) with (fFill m) in *. change (vFill g) with (vFill m) in *. change (bFill g) with (bFill m) in *. change (fCap g) with (fCap m3) in *.
  rewrite Dz in *. fold c in HC, HV, VT, F3.
  assert (FR := sp_FR g f hs). change (fFill g) with (fFill m) in FR. rewrite Dz in FR.
  assert (Hnew : forall h, heFill m <= h < heFill m + 2 * d -> ~ liveH m h) by (intros h Hh [K _]; clear -Hh K; lia).
  assert (RL := sp_LR g hs). assert (RT := sp_TR g hs). change (heFill g) with (heFill m) in RL, RT. rewrite Dz in RL, RT.
  assert (RG : forall h, liveH m h -> 0 <= h < heFill m) by (intros h [K _]; exact K).
  assert (NC : forall h, liveH m h -> ve m h <> c). { intros h Hh K. destruct (cn_ve _ CN _ Hh) as [K1 _]. unfold c in K. clear -K K1. lia. }
  assert (Efh : fh m f = getZ hs 0) by (symmetry; eapply getZ_0; eauto).
  exists m'. split; [exact R|]. split; [exact V'|]. split; [unfold NoDeadLoops in *; rewrite D6, F5; exact ND0|].
  split; [exact D4|]. split; [exact D3|]. split; [exact D1|]. split; [exact D2|]. split; [exact D5|]. split; [exact D6|].
  split; [intros [K _]; unfold c in K; clear -K; lia|].
  split. { intros v. unfold liveV. rewrite F3. destruct (Z.eq_dec v c) as [->|K].
    - rewrite HC. split; auto. intros _. pose proof (RT 0 ltac:(clear -Hd; lia)). pose proof (st_v _ ST). pose proof (st_he _ ST). fold c in H0. clear -H H0 H1. lia.
    - rewrite HV by auto. fold c. split.
      + intros [K1 K2]. left. assert (K3 : 0 <= v < c) by (clear -K1 K; lia). split; auto. unfold g in K2. rewrite (reset_vh m m3 s A) in K2; auto.
      + intros [[K1 K2]|K1]; [|contradiction]. split; [clear -K1; lia|]. unfold g. rewrite (reset_vh m m3 s A); auto. }
  split; [intros h; rewrite <- LG; apply LH|].
  assert (FHf : fh m f <> -1) by apply Lf.
  assert (NF : forall k, k <> f -> ~ (fFill m <= k < fFill m + (d - 1)) -> forall i, 0 <= i < d -> k <> spF (fFill m) f i).
  { intros k K1 K2 i Hi ->. destruct (FR i Hi); auto. }
  split. { intros k. unfold liveF. rewrite F4. destruct (Z.eq_dec k f) as [->|Kf].
    - split; [intros _; left; exact Lf|]. intros _. split; [clear -Hf Hd; lia|]. change f with (spF (fFill m) f 0). rewrite HH by (clear -Hd; lia). rewrite <- Efh.
      destruct (cn_fh _ CN f (or_introl Lf)) as [K _]. apply RG in K. clear -K. lia.
    - split.
      + intros [K1 K2]. destruct (Z_lt_le_dec k (fFill m)) as [K|K]; [|right; clear -K K1; lia]. left. assert (Kr : 0 <= k < fFill m) by (clear -K K1; lia). split; auto.
        rewrite HO in K2 by (apply NF; auto; clear -K; lia). change (fh g k) with (fh m3 k) in K2. rewrite (al_fh _ _ _ A) in K2; auto.
      + intros [[K1 K2]|K].
        * split; [clear -K1 Hd; lia|]. rewrite HO by (apply NF; auto; clear -K1; lia). change (fh g k) with (fh m3 k). rewrite (al_fh _ _ _ A); auto.
        * split; [pose proof (st_f _ ST); clear -K H; lia|]. replace k with (spF (fFill m) f (k - fFill m + 1)).
          -- assert (Ki : 0 <= k - fFill m + 1 < d) by (clear -K; lia). rewrite HH by auto. assert (Hi : liveH m (getZ hs (k - fFill m + 1))) by (apply CM, getZ_nth_In; auto). apply RG in Hi. clear -Hi. lia.
          -- unfold spF. rewrite (proj2 (Z.eqb_neq (k - fFill m + 1) 0)) by (clear -K; lia). clear; lia. }
  split. { intros i. rewrite <- (reset_liveBL m m3 s i ST A). fold g. unfold liveBL. rewrite F5, P4. change (bFill g) with (bFill m). change (fCap g) with (fCap m3).
    split; intros [K1 K2]; (split; [auto|]); [rewrite <- HO|rewrite HO]; auto; apply NF; clear -K1 R2 Hf Hd Dz; lia. }
  split. { intros h Hh. rewrite VO by (apply RG; auto). apply WG; auto. }
  split. { intros h Hh Hn. pose proof (sp_notb hs h Hn) as NI. rewrite NO by (auto; apply RG; auto). split; [apply NG; auto|].
    rewrite <- (reset_side m m3 s h A Hh). fold g. unfold side. rewrite F4, P4. change (fFill g) with (fFill m). change (fCap g) with (fCap m3). rewrite FO by (auto; apply RG; auto).
    pose proof (cn_fa _ (va_cn _ VG) h (proj2 (LG h) Hh)) as Kx. unfold liveFL, liveF, liveL in Kx. change (fFill g) with (fFill m) in Kx. change (bFill g) with (bFill m) in Kx. change (fCap g) with (fCap m3) in Kx.
    destruct (Z.leb_spec (fFill m + (d - 1)) (fa g h)), (Z.leb_spec (fFill m) (fa g h)); auto; exfalso; clear -H H0 Kx R2 Hd Dz; lia. }
  assert (IX : forall i, 0 <= i < d -> ~ ext m' (getZ hs i)).
  { intros i Hi. unfold ext. rewrite FB, F4 by auto. pose proof (FR i Hi). clear -H Hf Hd Dz. lia. }
  split. { intros h Hh. destruct (In_getZ _ _ Hh) as (i & Hi & <-). rewrite Dz in Hi. exists (spL (heFill m) i), (spT (heFill m) d i).
    split; [auto|]. split; [auto|]. split; [auto|]. split; [auto|]. split; [auto|]. split; [apply sp_LT|].
    assert (Lh : liveH m (getZ hs i)) by (apply CM; auto). split; [|split; [auto|split; [auto|]]].
    2:{ pose proof (sp_TL g hs VG i) as TL. pose proof (sp_bnx g f hs Hbs Cg i) as BN. pose proof (sp_nxt hs i) as NI. change (heFill g) with (heFill m) in TL. rewrite Dz in TL, BN, NI. rewrite TL, NT by auto. rewrite <- BN by auto. apply NG; auto. }
    rewrite VL by auto. rewrite NG by auto. rewrite WG by (apply CN; auto). apply (cn_vnx _ CN); auto. }
  split. { rewrite Efh. unfold side. rewrite FB, F4 by (clear -Hd; lia). change (spF (fFill m) f 0) with f. destruct (Z.leb_spec (fFill m + (d - 1)) f); [exfalso; clear -H Hf Hd Dz; lia|reflexivity]. }
  split. { exists (map (spT (heFill m) d) (zs 0 (length hs))). split; [|split; [|split]].
    - assert (XN : forall l, NoDup l -> (forall i, In i l -> 0 <= i < d) -> NoDup (map (spT (heFill m) d) l)).
      { induction l as [|x l IH]; cbn; intros Nl Hl; [constructor|]. apply NoDup_cons_iff in Nl as [N1 N2]. constructor; [|apply IH; auto]. intros K. apply in_map_iff in K as (y & K1 & K2).
        assert (y = x); [|congruence]. pose proof (sp_Tinj g hs) as X. rewrite Dz in X. apply X; auto. }
      apply XN; [apply FinFun.Injective_map_NoDup; [intros a b; apply Nat2Z.inj|apply seq_NoDup]|]. intros i Hi. apply zs_In in Hi. unfold d. clear -Hi. lia.
    - rewrite map_length. unfold zs. rewrite map_length, seq_length. reflexivity.
    - intros h. rewrite in_map_iff. split.
      + intros (i & <- & Hi). apply zs_In in Hi. assert (Ki : 0 <= i < d) by (unfold d; clear -Hi; lia). split; [apply LH; right; auto|apply VT; auto].
      + intros [Hh Ev]. destruct (KD h Hh) as [(K1 & _)|(i & Hi & [->|[->| ->]])].
        * apply LG in K1. rewrite VO, WG in Ev by (auto; apply RG; auto). exfalso. eapply NC; eauto.
        * assert (K1 : liveH m (getZ hs i)) by (apply CM, getZ_nth_In; auto). rewrite VO, WG in Ev by (auto; apply RG; auto). exfalso. eapply NC; eauto.
        * assert (K1 : liveH m (getZ hs i)) by (apply CM, getZ_nth_In; auto). change (heFill g) with (heFill m) in Ev. rewrite VL in Ev by auto. rewrite NG, WG in Ev by (auto; rewrite ?NG by auto; apply CN; auto). exfalso. eapply (NC (nx m (getZ hs i))); [apply CN; auto|exact Ev].
        * exists i. split; auto. apply zs_In. unfold d in Hi. clear -Hi. lia.
    - rewrite map_map. transitivity (map (getZ hs) (zs 0 (length hs))); [|apply map_getZ]. apply map_ext_in. intros i Hi. apply NT. apply zs_In in Hi. unfold d. clear -Hi. lia. }
  split. { intros v [Kv Kl]. rewrite HV by (unfold c; clear -Kv; lia). unfold g. apply (reset_vh m m3 s A); auto. }
  split; [exact F1|]. split; [exact F3|]. split; [exact F4|exact F5].
Qed.
