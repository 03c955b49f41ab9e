(** The second pass of the constructor: edges and siblings *)
From Verif Require Import Base MeshModel MeshSpec MeshBase GenModel GenSpec GenBase GenBuild1.
From Coq Require Import Permutation.
Open Scope Z_scope.

(** ** the history *)
Lemma hFind_hSet d a b i a' b' : hFind (hSet d a b i) a' b' = if (a =? a') && (b =? b') then Some i else hFind d a' b'.
Proof.
  induction d as [|[[x y] j] d IH]; simpl; [reflexivity|]. destruct ((x =? a) && (y =? b)) eqn:E; simpl.
  - destruct ((a =? a') && (b =? b')) eqn:E'.
    + replace ((x =? a') && (y =? b')) with true by lia. reflexivity.
    + replace ((x =? a') && (y =? b')) with false by lia. reflexivity.
  - rewrite IH. destruct ((a =? a') && (b =? b')) eqn:E'; [|reflexivity]. replace ((x =? a') && (y =? b')) with false by lia. reflexivity.
Qed.
Lemma hSet_keys d a b i k : In k (map fst (hSet d a b i)) <-> k = (a, b) \/ In k (map fst d).
Proof.
  induction d as [|[[x y] j] d IH]; simpl; [intuition congruence|]. destruct ((x =? a) && (y =? b)) eqn:E; simpl.
  - replace (x, y) with (a, b) by (f_equal; lia). intuition congruence.
  - rewrite IH. intuition congruence.
Qed.
Lemma hSet_NoDup d a b i : NoDup (map fst d) -> NoDup (map fst (hSet d a b i)).
Proof.
  induction d as [|[[x y] j] d IH]; simpl; intros H; [repeat constructor; auto|]. apply NoDup_cons_iff in H as [H1 H2].
  destruct ((x =? a) && (y =? b)) eqn:E; simpl; [constructor; auto|]. constructor; auto. rewrite hSet_keys. intros [C|C]; auto. injection C as -> ->. lia.
Qed.
Lemma hFind_In d a b i : NoDup (map fst d) -> (hFind d a b = Some i <-> In (a, b, i) d).
Proof.
  induction d as [|[[x y] j] d IH]; simpl; intros H; [split; [discriminate|contradiction]|]. apply NoDup_cons_iff in H as [H1 H2].
  destruct ((x =? a) && (y =? b)) eqn:E.
  - assert (x = a /\ y = b) as [-> ->] by lia. split; [intros [= ->]; auto|]. intros [C|C]; [congruence|]. exfalso. apply H1.
    apply in_map_iff. exists (a, b, i). auto.
  - rewrite IH by auto. split; auto. intros [C|C]; auto. injection C as -> -> _. lia.
Qed.

Section Pass2.
Context (T U : Z -> Z) (N : Z) (HN : 0 <= N).
Definition Kt (h : Z) : Z * Z := (Z.min (T h) (U h), Z.max (T h) (U h)).
Lemma Kt_dec (a b : Z * Z) : {a = b} + {a <> b}. Proof. decide equality; apply Z.eq_dec. Qed.
Lemma Kt_ends a b : Kt a = Kt b <-> sameEnds (T a) (U a) (T b) (U b).
Proof. unfold Kt, sameEnds. split; [intros [= A B]; lia|]. intros H. f_equal; lia. Qed.

(** the sibling found so far: the last halfedge before [h] with the same ends *)
Definition PrevOf (s : Z -> Z) (h : Z) : Prop :=
  (s h = -1 /\ forall j, 0 <= j < h -> Kt j <> Kt h) \/
  (0 <= s h < h /\ Kt (s h) = Kt h /\ forall j, s h < j < h -> Kt j <> Kt h).
Record Pass2 (m0 : gmesh) (n : Z) (m : gmesh) (d : history) : Prop := {
  s_hit : forall a b i, hFind d a b = Some i -> 0 <= i < n /\ Kt i = (a, b) /\ forall j, i < j < n -> Kt j <> (a, b);
  s_all : forall j, 0 <= j < n -> exists i, hFind d (fst (Kt j)) (snd (Kt j)) = Some i;
  s_keys : NoDup (map fst d);
  s_prev : forall h, 0 <= h < n -> PrevOf (ev m ASib) h;
  s_edge : forall h, 0 <= h < n -> 0 <= ev m AEdge h < gEFill m;
  s_same : forall a b, 0 <= a < n -> 0 <= b < n -> (ev m AEdge a = ev m AEdge b <-> Kt a = Kt b);
  s_ehe : forall e, 0 <= e < gEFill m -> 0 <= ev m AEHe e < n /\ ev m AEdge (ev m AEHe e) = e;
  s_ori : forall h, 0 <= h < n -> ev m AOri h = if T h =? T (ev m AEHe (ev m AEdge h)) then 1 else 0;
  s_szE : Sized m TEd;
  s_cntE : gEd m = gEFill m;
  s_len : forall a, typeOf a = THe -> zlen (ga m a) = zlen (ga m0 a);
  s_frame : forall a, a <> ASib -> a <> AEdge -> a <> AOri -> a <> AEHe -> ga m a = ga m0 a;
  s_cnt : forall t, t <> TEd -> gFill m t = gFill m0 t /\ gCap m t = gCap m0 t;
  s_num : gHe m = gHe m0 /\ gInt m = gInt m0 /\ gVe m = gVe m0 /\ gFc m = gFc m0 }.
Lemma prevOf_ext s s' h : s h = s' h -> PrevOf s h -> PrevOf s' h.
Proof. unfold PrevOf. intros <-. auto. Qed.

Lemma addEdge_ok m0 n m d : Pass2 m0 n m d -> 0 <= n < N ->
  (forall h, 0 <= h < N -> ev m0 AVert h = T h) -> gHeFill m0 = N -> Sized m0 THe ->
  exists m' d', gAddEdge (m, d, n) (T n, U n) = Ok (m', d', n + 1) /\ Pass2 m0 (n + 1) m' d'.
Proof.
  intros Q Hn HT HF [SZ1 SZ2]. cbn [gFill gCap] in SZ1, SZ2.
  assert (TT : forall h, 0 <= h < N -> ev m AVert h = T h) by (intros h Hh; unfold ev; rewrite (s_frame _ _ _ _ Q) by discriminate; apply HT; auto).
  assert (LL : forall a, typeOf a = THe -> N <= zlen (ga m a)) by (intros a Ta; rewrite (s_len _ _ _ _ Q), SZ1 by auto; lia).
  unfold gAddEdge. fold (Kt n).
  change (Z.min (T n) (U n)) with (fst (Kt n)). change (Z.max (T n) (U n)) with (snd (Kt n)).
  destruct (hFind d (fst (Kt n)) (snd (Kt n))) as [p|] eqn:EF.
  - (* a known edge *)
    destruct (s_hit _ _ _ _ Q _ _ _ EF) as (P1 & P2 & P3). rewrite <- surjective_pairing in P2, P3.
    pose proof (s_edge _ _ _ _ Q p P1) as EP. pose proof (s_ehe _ _ _ _ Q _ EP) as [EH1 EH2].
    destruct (s_szE _ _ _ _ Q) as [SE1 SE2]. cbn [gFill gCap] in SE1, SE2. pose proof (SE1 AEHe eq_refl) as LE.
    pose proof (LL ASib eq_refl) as L1. pose proof (LL AEdge eq_refl) as L2. pose proof (LL AOri eq_refl) as L3. pose proof (LL AVert eq_refl) as L4.
    set (e := ev m AEdge p) in *.
    rewrite wrA_ok by lia. cbn [bind]. rewrite rdA_ok by (rewrite len_wA; lia). rewrite ev_other by discriminate. cbn [bind]. fold e.
    rewrite wrA_ok by (rewrite len_wA; lia). cbn [bind].
    rewrite rdA_ok by (rewrite !len_wA; lia). cbn [bind]. rewrite rdA_ok by (rewrite !len_wA; lia). cbn [bind].
    rewrite !(ev_other _ _ _ _ AEHe) by discriminate. rewrite rdA_ok by (rewrite !len_wA; lia). cbn [bind].
    rewrite !(ev_other _ _ _ _ AVert) by discriminate. rewrite !TT by lia.
    rewrite wrA_ok by (rewrite !len_wA; lia). cbn [bind].
    set (o := if T n =? T (ev m AEHe e) then 1 else 0).
    set (m' := wA (wA (wA m ASib n p) AEdge n e) AOri n o).
    assert (X1 : forall h, ev m' ASib h = if h =? n then p else ev m ASib h).
    { intros h. unfold m'. rewrite !ev_other by discriminate. apply ev_same. lia. }
    assert (X2 : forall h, ev m' AEdge h = if h =? n then e else ev m AEdge h).
    { intros h. unfold m'. rewrite ev_other by discriminate. rewrite ev_same by (rewrite len_wA; lia). rewrite ev_other by discriminate. reflexivity. }
    assert (X3 : forall h, ev m' AOri h = if h =? n then o else ev m AOri h).
    { intros h. unfold m'. rewrite ev_same by (rewrite !len_wA; lia). rewrite !ev_other by discriminate. reflexivity. }
    assert (X4 : forall x, ev m' AEHe x = ev m AEHe x).
    { intros h. unfold m'. rewrite !ev_other by discriminate. reflexivity. }
    do 2 eexists. split; [reflexivity|]. constructor.
    + intros a b i Hi. rewrite hFind_hSet in Hi. destruct ((fst (Kt n) =? a) && (snd (Kt n) =? b)) eqn:E.
      * injection Hi as <-. split; [lia|]. split; [rewrite (surjective_pairing (Kt n)); f_equal; lia|]. lia.
      * destruct (s_hit _ _ _ _ Q _ _ _ Hi) as (H1 & H2 & H3). split; [lia|]. split; auto. intros j Hj.
        destruct (Z.eq_dec j n) as [->|]; [|apply H3; lia]. intros C. rewrite C in E. simpl in E. lia.
    + intros j Hj. destruct (Kt_dec (Kt n) (Kt j)) as [K|K].
      * exists n. rewrite hFind_hSet, K, !Z.eqb_refl. reflexivity.
      * destruct (Z.eq_dec j n) as [->|Nj]; [congruence|]. destruct (s_all _ _ _ _ Q j ltac:(lia)) as (i & Hi). rewrite hFind_hSet.
        destruct (_ && _); eauto.
    + apply hSet_NoDup, (s_keys _ _ _ _ Q).
    + intros h Hh. destruct (Z.eq_dec h n) as [->|Nh].
      * right. rewrite X1, Z.eqb_refl. split; [lia|]. split; auto.
      * apply prevOf_ext with (ev m ASib); [rewrite X1; replace (h =? n) with false by lia; reflexivity|]. apply (s_prev _ _ _ _ Q). lia.
    + intros h Hh. rewrite X2. change (gEFill m') with (gEFill m). destruct (h =? n) eqn:E; [auto|]. apply (s_edge _ _ _ _ Q). lia.
    + assert (W : forall a, 0 <= a < n + 1 -> ev m' AEdge a = ev m AEdge (if a =? n then p else a)).
      { intros a Ha. rewrite X2. destruct (a =? n); reflexivity. }
      assert (W' : forall a, Kt (if a =? n then p else a) = Kt a).
      { intros a. destruct (a =? n) eqn:E; auto. replace a with n by lia. auto. }
      intros a b Ha Hb. rewrite !W by auto. rewrite (s_same _ _ _ _ Q); [rewrite !W'; tauto| |]; match goal with |- context [if ?c then _ else _] => destruct c eqn:E end; lia.
    + intros x Hx. change (gEFill m') with (gEFill m) in Hx. rewrite X4. destruct (s_ehe _ _ _ _ Q x Hx) as [H1 H2].
      split; [lia|]. rewrite X2. destruct (_ =? n) eqn:E; [lia|auto].
    + intros h Hh. rewrite X3, X2, X4. destruct (h =? n) eqn:E; [replace h with n by lia; reflexivity|]. apply (s_ori _ _ _ _ Q). lia.
    + split; [intros a Ta; unfold m'; rewrite !len_wA; apply SE1; auto|exact SE2].
    + exact (s_cntE _ _ _ _ Q).
    + intros a Ta. unfold m'. rewrite !len_wA. apply (s_len _ _ _ _ Q); auto.
    + intros a D1 D2 D3 D4. rewrite <- (s_frame _ _ _ _ Q a) by auto. unfold m', wA, setA, put. cbn [ga]. rewrite !arr_eqb_neq by auto. reflexivity.
    + intros t Ht. unfold m'. rewrite !fill_wA, !cap_wA. apply (s_cnt _ _ _ _ Q); auto.
    + exact (s_num _ _ _ _ Q).
  - (* a new edge *)
    assert (NEW : forall j, 0 <= j < n -> Kt j <> Kt n).
    { intros j Hj C. destruct (s_all _ _ _ _ Q j Hj) as (i & Hi). rewrite C in Hi. congruence. }
    destruct (newEdge_ok m (s_szE _ _ _ _ Q)) as (m1 & -> & (G1 & G2 & G3 & G4 & G5 & G6 & G7) & C1 & C2 & C3 & C4 & C5).
    cbn [gFill gCap] in G1, G2, G3, G4. set (e := gEFill m) in *.
    assert (E0 : 0 <= e) by (unfold e; apply (s_szE _ _ _ _ Q)).
    assert (LL1 : forall a, typeOf a = THe -> N <= zlen (ga m1 a)) by (intros a Ta; rewrite G6 by congruence; auto).
    pose proof (LL1 ASib eq_refl) as L1. pose proof (LL1 AEdge eq_refl) as L2. pose proof (LL1 AOri eq_refl) as L3. pose proof (G2 AEHe eq_refl) as LE.
    rewrite wrA_ok by lia. cbn [bind]. rewrite wrA_ok by (rewrite len_wA; lia). cbn [bind]. rewrite wrA_ok by (rewrite !len_wA; lia). cbn [bind].
    rewrite wrA_ok by (rewrite !len_wA; lia). cbn [bind].
    set (m' := wA (wA (wA (wA m1 AEdge n e) ASib n INVALID) AOri n 1) AEHe e n).
    assert (O1 : forall a h, typeOf a = THe -> ev m1 a h = ev m a h) by (intros a h Ta; unfold ev; rewrite G6 by congruence; auto).
    assert (X1 : forall h, ev m' ASib h = if h =? n then -1 else ev m ASib h).
    { intros h. unfold m'. rewrite !(ev_other _ _ _ _ ASib) by discriminate. rewrite ev_same by (rewrite len_wA; lia). rewrite ev_other by discriminate. rewrite O1 by reflexivity. reflexivity. }
    assert (X2 : forall h, ev m' AEdge h = if h =? n then e else ev m AEdge h).
    { intros h. unfold m'. rewrite !(ev_other _ _ _ _ AEdge) by discriminate. rewrite ev_same by lia. rewrite O1 by reflexivity. reflexivity. }
    assert (X3 : forall h, ev m' AOri h = if h =? n then 1 else ev m AOri h).
    { intros h. unfold m'. rewrite (ev_other _ _ _ _ AOri) by discriminate. rewrite ev_same by (rewrite !len_wA; lia). rewrite !ev_other by discriminate. rewrite O1 by reflexivity. reflexivity. }
    assert (X4 : forall x, 0 <= x < e -> ev m' AEHe x = ev m AEHe x).
    { intros x Hx. unfold m'. rewrite ev_same by (rewrite !len_wA; lia). destruct (x =? e) eqn:E; [lia|]. rewrite !ev_other by discriminate. apply G5. cbn. fold e. lia. }
    assert (X5 : ev m' AEHe e = n).
    { unfold m'. rewrite ev_same by (rewrite !len_wA; lia). rewrite Z.eqb_refl. reflexivity. }
    do 2 eexists. split; [reflexivity|]. constructor.
    + intros a b i Hi. rewrite hFind_hSet in Hi. destruct ((fst (Kt n) =? a) && (snd (Kt n) =? b)) eqn:E.
      * injection Hi as <-. split; [lia|]. split; [rewrite (surjective_pairing (Kt n)); f_equal; lia|]. lia.
      * destruct (s_hit _ _ _ _ Q _ _ _ Hi) as (H1 & H2 & H3). split; [lia|]. split; auto. intros j Hj.
        destruct (Z.eq_dec j n) as [->|]; [|apply H3; lia]. intros C. rewrite C in E. simpl in E. lia.
    + intros j Hj. destruct (Kt_dec (Kt n) (Kt j)) as [K|K].
      * exists n. rewrite hFind_hSet, K, !Z.eqb_refl. reflexivity.
      * destruct (Z.eq_dec j n) as [->|Nj]; [congruence|]. destruct (s_all _ _ _ _ Q j ltac:(lia)) as (i & Hi). rewrite hFind_hSet.
        destruct (_ && _); eauto.
    + apply hSet_NoDup, (s_keys _ _ _ _ Q).
    + intros h Hh. destruct (Z.eq_dec h n) as [->|Nh].
      * left. rewrite X1, Z.eqb_refl. split; auto.
      * apply prevOf_ext with (ev m ASib); [rewrite X1; replace (h =? n) with false by lia; reflexivity|]. apply (s_prev _ _ _ _ Q). lia.
    + intros h Hh. rewrite X2. change (gEFill m') with (gEFill m1). rewrite G1. destruct (h =? n) eqn:E; [lia|]. pose proof (s_edge _ _ _ _ Q h ltac:(lia)). fold e in H. lia.
    + intros a b Ha Hb. rewrite !X2. destruct (a =? n) eqn:Ea, (b =? n) eqn:Eb.
      * replace b with a by lia. tauto.
      * pose proof (s_edge _ _ _ _ Q b ltac:(lia)). fold e in H. replace a with n by lia. split; [lia|]. intros C. exfalso. apply (NEW b); [lia|auto].
      * pose proof (s_edge _ _ _ _ Q a ltac:(lia)). fold e in H. replace b with n by lia. split; [lia|]. intros C. exfalso. apply (NEW a); [lia|auto].
      * apply (s_same _ _ _ _ Q); lia.
    + intros x Hx. change (gEFill m') with (gEFill m1) in Hx. rewrite G1 in Hx. destruct (Z.eq_dec x e) as [->|Nx].
      * rewrite X5. split; [lia|]. rewrite X2, Z.eqb_refl. reflexivity.
      * rewrite X4 by lia. destruct (s_ehe _ _ _ _ Q x ltac:(fold e; lia)) as [H1 H2]. split; [lia|]. rewrite X2. destruct (_ =? n) eqn:E; [lia|auto].
    + intros h Hh. rewrite X3, X2. destruct (h =? n) eqn:E.
      * rewrite X5. replace h with n by lia. rewrite Z.eqb_refl. reflexivity.
      * pose proof (s_edge _ _ _ _ Q h ltac:(lia)) as B. fold e in B. rewrite X4 by auto. apply (s_ori _ _ _ _ Q). lia.
    + split; [intros a Ta; unfold m'; rewrite !len_wA; apply G2; auto|]. change (gFill m' TEd) with (gEFill m1). change (gCap m' TEd) with (gECap m1). lia.
    + change (gEd m') with (gEd m1). change (gEFill m') with (gEFill m1). pose proof (s_cntE _ _ _ _ Q). fold e in H. lia.
    + intros a Ta. unfold m'. rewrite !len_wA. rewrite G6 by congruence. apply (s_len _ _ _ _ Q); auto.
    + intros a D1 D2 D3 D4. rewrite <- (s_frame _ _ _ _ Q a) by auto. rewrite <- G6 by (destruct a; simpl; congruence).
      unfold m', wA, setA, put. cbn [ga]. rewrite !arr_eqb_neq by auto. reflexivity.
    + intros t Ht. unfold m'. rewrite !fill_wA, !cap_wA. destruct (G7 t Ht) as [-> ->]. apply (s_cnt _ _ _ _ Q); auto.
    + destruct (s_num _ _ _ _ Q) as (M1 & M2 & M3 & M4). change (gHe m') with (gHe m1). change (gInt m') with (gInt m1). change (gVe m') with (gVe m1).
      change (gFc m') with (gFc m1). repeat split; congruence.
Qed.

Lemma pass2_ok m0 : (forall h, 0 <= h < N -> ev m0 AVert h = T h) -> gHeFill m0 = N -> Sized m0 THe -> Sized m0 TEd ->
  gEFill m0 = 0 -> gEd m0 = 0 ->
  exists m d, foldM gAddEdge (map (fun h => (T h, U h)) (zseq N)) (m0, [], 0) = Ok (m, d, N) /\ Pass2 m0 N m d.
Proof.
  intros HT HF SZ SE E0 E1.
  assert (G : forall n, 0 <= n -> n <= N -> exists m d, foldM gAddEdge (map (fun h => (T h, U h)) (zseq n)) (m0, [], 0) = Ok (m, d, n) /\ Pass2 m0 n m d).
  { apply (Z_ind_nonneg (fun n => n <= N -> exists m d, foldM gAddEdge (map (fun h => (T h, U h)) (zseq n)) (m0, [], 0) = Ok (m, d, n) /\ Pass2 m0 n m d)).
    - intros _. exists m0, []. split; [reflexivity|]. constructor; auto; try (intros; lia); try (intros; discriminate).
      constructor.
    - intros n Hn IH L. destruct (IH ltac:(lia)) as (m & d & E & Q). rewrite zseq_S by auto. rewrite map_app, foldM_app, E. cbn [bind map foldM].
      destruct (addEdge_ok m0 n m d Q ltac:(lia) HT HF SZ) as (m' & d' & -> & Q'). cbn [bind]. eauto. }
  apply G; lia.
Qed.

(** ** closing the sibling cycles *)
(** [done]: the edges that are closed *)
Definition Sib (s : Z -> Z) (h : Z) : Prop :=
  (0 <= s h < h /\ Kt (s h) = Kt h /\ forall j, s h < j < h -> Kt j <> Kt h) \/
  ((forall j, 0 <= j < h -> Kt j <> Kt h) /\ h <= s h < N /\ Kt (s h) = Kt h /\ forall j, s h < j < N -> Kt j <> Kt h).
Lemma walkBack_ok m : (forall h, 0 <= h < N -> 0 <= h < zlen (ga m ASib)) -> forall fuel h, 0 <= h < N -> (Z.to_nat h < fuel)%nat ->
  (forall j, 0 <= j < N -> Kt j = Kt h -> PrevOf (ev m ASib) j) ->
  exists c, gWalkBack fuel m h = Ok c /\ 0 <= c <= h /\ Kt c = Kt h /\ forall j, 0 <= j < c -> Kt j <> Kt h.
Proof.
  intros L. induction fuel as [|k IH]; intros h Hh F PO; [lia|]. simpl. rewrite rdA_ok by auto. cbn [bind].
  destruct (PO h Hh eq_refl) as [[P1 P2]|(P1 & P2 & P3)].
  - rewrite P1. exists h. split; [reflexivity|]. split; [lia|]. split; auto.
  - destruct (_ =? INVALID) eqn:E; [unfold INVALID in E; lia|]. destruct (IH (ev m ASib h)) as (c & W1 & W2 & W3 & W4); [lia|lia| |].
    + intros j Hj K. apply PO; auto. congruence.
    + exists c. split; auto. split; [lia|]. split; [congruence|]. intros j Hj. rewrite <- P2. apply W4; auto.
Qed.
Lemma complete_ok m0 m d : Pass2 m0 N m d -> gHeFill m0 = N -> Sized m0 THe -> forall l, Permutation l d ->
  exists m', foldM gComplete l m = Ok m' /\ (forall h, 0 <= h < N -> Sib (ev m' ASib) h) /\
    (forall a, zlen (ga m' a) = zlen (ga m a)) /\ (forall a, a <> ASib -> ga m' a = ga m a) /\ frame m' = frame m.
Proof.
  intros Q HF [SZ1 SZ2] l PM. cbn [gFill gCap] in SZ1, SZ2.
  assert (L0 : N <= zlen (ga m ASib)) by (rewrite (s_len _ _ _ _ Q), SZ1 by reflexivity; lia).
  assert (HFm : gHeFill m = N) by (rewrite <- HF; apply (s_cnt _ _ _ _ Q THe); discriminate).
  pose proof (s_keys _ _ _ _ Q) as ND. pose proof (s_hit _ _ _ _ Q) as HIT.
  assert (NDl : NoDup (map fst l)) by (apply (Permutation_NoDup (Permutation_sym (Permutation_map fst PM))); auto).
  assert (INl : forall x, In x l -> In x d) by (intros x; apply (Permutation_in x PM)).
  assert (G : forall done rest, done ++ rest = l -> exists m', foldM gComplete done m = Ok m' /\
     (forall h, 0 <= h < N -> In (Kt h) (map fst done) -> Sib (ev m' ASib) h) /\
     (forall h, 0 <= h < N -> ~ In (Kt h) (map fst done) -> ev m' ASib h = ev m ASib h) /\
     (forall a, zlen (ga m' a) = zlen (ga m a)) /\ (forall a, a <> ASib -> ga m' a = ga m a) /\ frame m' = frame m).
  { induction done as [|[[a b] i] done IH] using rev_ind; intros rest E.
    - exists m. split; [reflexivity|]. split; [intros h _ []|]. repeat split; auto.
    - rewrite <- app_assoc in E. destruct (IH _ E) as (m1 & F1 & D1 & D2 & LL & FR & FM). rewrite foldM_app, F1. cbn [bind foldM].
      assert (NIN : ~ In (a, b) (map fst done)).
      { rewrite <- E, map_app in NDl. simpl in NDl. apply NoDup_remove_2 in NDl. rewrite in_app_iff in NDl. tauto. }
      assert (ID : hFind d a b = Some i) by (apply (hFind_In d a b i ND); apply INl; rewrite <- E; apply in_or_app; right; left; auto).
      destruct (HIT _ _ _ ID) as (H1 & H2 & H3).
      assert (SAME : forall j, 0 <= j < N -> Kt j = (a, b) -> ev m1 ASib j = ev m ASib j) by (intros j Hj K; apply D2; auto; rewrite K; auto).
      assert (PO : forall j, 0 <= j < N -> Kt j = Kt i -> PrevOf (ev m1 ASib) j).
      { intros j Hj K. apply prevOf_ext with (ev m ASib); [symmetry; apply SAME; auto; congruence|]. apply (s_prev _ _ _ _ Q); auto. }
      assert (W : exists c, gComplete m1 (a, b, i) = Ok (wA m1 ASib c i) /\ 0 <= c <= i /\ Kt c = Kt i /\ forall j, 0 <= j < c -> Kt j <> Kt i).
      { unfold gComplete. cbn [snd]. rewrite rdA_ok by (rewrite LL; lia). cbn [bind]. destruct (PO i H1 eq_refl) as [[P1 P2]|(P1 & P2 & P3)].
        - rewrite P1. exists i. split; [apply wrA_ok; rewrite LL; lia|]. split; [lia|]. auto.
        - destruct (_ =? INVALID) eqn:EE; [unfold INVALID in EE; lia|].
          destruct (walkBack_ok m1 ltac:(intros; rewrite LL; lia) (gFuel m1) i H1) as (c & W1 & W2 & W3 & W4); auto.
          { injection FM as _ _ _ _ _ FM _ _ _ _ _ _ _. unfold gFuel. lia. }
          rewrite W1. cbn [bind]. exists c. split; [apply wrA_ok; rewrite LL; lia|]. auto. }
      destruct W as (c & -> & C1 & C2 & C3). cbn [bind]. eexists. split; [reflexivity|].
      assert (X : forall h, ev (wA m1 ASib c i) ASib h = if h =? c then i else ev m1 ASib h) by (intros h; apply ev_same; rewrite LL; lia).
      assert (Kab : Kt c = (a, b)) by congruence.
      split; [|split; [|split; [|split]]].
      + intros h Hh IN. rewrite map_app, in_app_iff in IN. unfold Sib. rewrite X. destruct (h =? c) eqn:Ec.
        * replace h with c by lia. right. split; [intros j Hj; rewrite C2; apply C3; auto|]. split; [lia|]. split; [auto|].
          intros j Hj. rewrite Kab. apply H3. auto.
        * destruct IN as [IN|[IN|[]]]; [exact (D1 h Hh IN)|]. simpl in IN.
          destruct (PO h Hh ltac:(congruence)) as [[P1 P2]|P]; [|left; exact P].
          exfalso. destruct (Z_lt_le_dec h c) as [J|J].
          -- apply (C3 h); [lia|congruence].
          -- apply (P2 c); [lia|congruence].
      + intros h Hh NI. rewrite map_app, in_app_iff in NI. rewrite X. destruct (h =? c) eqn:Ec.
        * exfalso. apply NI. right. left. simpl. replace h with c by lia. auto.
        * apply D2; auto.
      + intros x. rewrite len_wA. auto.
      + intros x Nx. rewrite <- FR by auto. unfold wA, setA, put. cbn [ga]. rewrite arr_eqb_neq by auto. reflexivity.
      + rewrite frame_wA. auto. }
  destruct (G l [] (app_nil_r l)) as (m' & F & D1 & D2 & LL & FR & FM). exists m'. split; auto. split; auto.
  intros h Hh. apply D1; auto. destruct (s_all _ _ _ _ Q h Hh) as (i & Hi). apply (hFind_In _ _ _ _ ND) in Hi.
  rewrite <- surjective_pairing in Hi. apply (Permutation_in _ (Permutation_sym PM)) in Hi. apply in_map_iff. exists (Kt h, i). auto.
Qed.

(** the cycles *)
Lemma sib_down s : (forall h, 0 <= h < N -> Sib s h) -> forall n, 0 <= n -> forall h b, 0 <= b <= h -> h < n -> h < N -> Kt b = Kt h -> reach s h b.
Proof.
  intros SB. apply (Z_ind_nonneg (fun n => forall h b, 0 <= b <= h -> h < n -> h < N -> Kt b = Kt h -> reach s h b)); [intros; lia|].
  intros n Hn IH h b Hb Hh HN' K. destruct (Z.eq_dec b h) as [->|Nb]; [exists O; reflexivity|].
  destruct (SB h ltac:(lia)) as [(P1 & P2 & P3)|(P1 & _)].
  - apply reach_trans with (s h); [apply reach_step|]. apply IH; try lia; [|congruence]. destruct (Z_lt_le_dec (s h) b) as [C|C]; [|lia].
    exfalso. apply (P3 b); [lia|auto].
  - exfalso. apply (P1 b); [lia|auto].
Qed.
Lemma sib_first : forall n, 0 <= n -> forall h, 0 <= h < n -> exists c, 0 <= c <= h /\ Kt c = Kt h /\ forall j, 0 <= j < c -> Kt j <> Kt h.
Proof.
  apply (Z_ind_nonneg (fun n => forall h, 0 <= h < n -> exists c, 0 <= c <= h /\ Kt c = Kt h /\ forall j, 0 <= j < c -> Kt j <> Kt h)); [intros; lia|].
  intros n Hn IH h Hh.
  assert (D : (exists j, 0 <= j < h /\ Kt j = Kt h) \/ forall j, 0 <= j < h -> Kt j <> Kt h).
  { destruct (existsb (fun j => if Kt_dec (Kt j) (Kt h) then true else false) (zseq h)) eqn:E.
    - left. apply existsb_exists in E as (j & J1 & J2). apply zseq_In in J1. exists j. split; auto. destruct (Kt_dec (Kt j) (Kt h)); [auto|discriminate].
    - right. intros j Hj C. apply Bool.not_true_iff_false in E. apply E. apply existsb_exists. exists j. split; [apply zseq_In; auto|].
      destruct (Kt_dec (Kt j) (Kt h)); auto. }
  destruct D as [(j & J1 & J2)|D]; [|exists h; split; [lia|auto]].
  destruct (IH j ltac:(lia)) as (c & C1 & C2 & C3). exists c. split; [lia|]. split; [congruence|]. rewrite <- J2. auto.
Qed.
Lemma sib_reach s : (forall h, 0 <= h < N -> Sib s h) -> forall a b, 0 <= a < N -> 0 <= b < N -> Kt a = Kt b -> reach s a b.
Proof.
  intros SB a b Ha Hb K. destruct (sib_first (a + 1) ltac:(lia) a ltac:(lia)) as (c & C1 & C2 & C3).
  apply reach_trans with c; [apply (sib_down s SB N); auto; lia|]. apply reach_trans with (s c); [apply reach_step|].
  destruct (SB c ltac:(lia)) as [(P1 & P2 & _)|(_ & P1 & P2 & P3)].
  - exfalso. apply (C3 (s c)); [lia|congruence].
  - apply (sib_down s SB N); auto; try lia; [|congruence]. destruct (Z_lt_le_dec (s c) b) as [C|C]; [|lia]. exfalso. apply (P3 b); [lia|congruence].
Qed.
Lemma sib_in s : (forall h, 0 <= h < N -> Sib s h) -> forall h, 0 <= h < N -> 0 <= s h < N /\ Kt (s h) = Kt h.
Proof. intros SB h Hh. destruct (SB h Hh) as [(P1 & P2 & _)|(_ & P1 & P2 & _)]; split; auto; lia. Qed.
End Pass2.
