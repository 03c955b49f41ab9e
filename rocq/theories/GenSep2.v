(** Separating all nonmanifold edges *)
From Verif Require Import Base MeshModel MeshSpec MeshBase MeshOrbit GenModel GenSpec GenBase GenBuild1 GenBuild6 GenOpsModel GenOpsSpec GenSepSpec GenOps1 GenOps2 GenOps3 GenSep1.
Open Scope Z_scope.

(** ** one edge *)
Record LoopRes (m m' : gmesh) (e : Z) : Prop := {
  lr_valid : GValid m';
  lr_e : gEFill m <= gEFill m';
  lr_fill : forall t, t <> TEd -> gFill m' t = gFill m t;
  lr_arr : forall p h, ~ In p [AEdge; ASib; AEHe] -> ev m' p h = ev m p h;
  lr_off : forall h, inH m h -> ev m AEdge h <> e -> ev m' AEdge h = ev m AEdge h /\ ev m' ASib h = ev m ASib h;
  lr_on : forall h, inH m h -> ev m AEdge h = e -> ev m' AEdge h = e \/ gEFill m <= ev m' AEdge h;
  lr_new : forall h, inH m h -> gEFill m <= ev m' AEdge h -> ev m' ASib h <> h /\ ev m' ASib (ev m' ASib h) = h;
  lr_end : forall h, inH m h -> ev m' AEdge h = e -> ev m' ASib (ev m' ASib h) = h;
  lr_keep : (forall h, inH m h -> ev m AEdge h = e -> ev m ASib (ev m ASib h) = h) -> m' = m }.

Lemma ring_two m h x : GValid m -> inH m h -> inH m x -> ev m AEdge x = ev m AEdge h -> ev m ASib (ev m ASib h) = h -> x = h \/ x = ev m ASib h.
Proof.
  intros V Hh Hx E Q. destruct (proj2 (gv_sib m V) h x Hh Hx (eq_sym E)) as [k <-]. induction k as [|k IH]; [left; reflexivity|].
  assert (G : forall k, Nat.iter k (ev m ASib) h = h \/ Nat.iter k (ev m ASib) h = ev m ASib h).
  { induction k0 as [|k0 [I|I]]; simpl; [auto|rewrite I; auto|rewrite I; auto]. }
  apply G.
Qed.
Lemma manifold_ok m e : GValid m -> 0 <= e < gEFill m -> exists b, gEdgeIsManifold m e = Ok b /\
  (b = true <-> forall h, inH m h -> ev m AEdge h = e -> ev m ASib (ev m ASib h) = h).
Proof.
  intros V He. pose proof (valid_fits m V) as F. pose proof (gv_sib m V) as R. destruct (gv_ehe m V e He) as [Hh Eh]. set (h := ev m AEHe e) in *.
  assert (Hs : inH m (ev m ASib h)) by (apply (ring_in _ _ _ R); auto).
  unfold gEdgeIsManifold. rewrite rdA_ok by (apply rdE; auto). cbn [bind]. fold h. rewrite rdA_ok by (apply rdH; auto). cbn [bind]. rewrite rdA_ok by (apply rdH; auto). cbn [bind].
  eexists. split; [reflexivity|]. split.
  - intros Q. assert (K : ev m ASib (ev m ASib h) = h).
    { apply orb_prop in Q as [Q|Q]; apply Z.eqb_eq in Q; auto. rewrite Q. exact Q. }
    intros x Hx Ex. destruct (ring_two m h x V Hh Hx ltac:(congruence) K) as [-> | ->]; [exact K|]. rewrite K. reflexivity.
  - intros Q. rewrite (Q h Hh Eh), Z.eqb_refl. reflexivity.
Qed.
Lemma loop_ok fuel : forall m e l, GValid m -> 0 <= e < gEFill m -> gEdgeHes m e = Ok l -> (length l < fuel)%nat -> exists m', gSeparateLoop fuel m e = Ok m' /\ LoopRes m m' e.
Proof.
  induction fuel as [|fuel IH]; intros m e l V He El Hl; [lia|]. cbn [gSeparateLoop].
  pose proof (valid_fits m V) as F. pose proof (gv_sib m V) as R.
  destruct (manifold_ok m e V He) as (b & -> & Hb). cbn [bind]. destruct b.
  { exists m. split; [reflexivity|]. pose proof (proj1 Hb eq_refl) as K. constructor; auto; try lia.
    intros h Hh Q. pose proof (gv_edge m V h Hh). lia. }
  destruct (gv_ehe m V e He) as [Ha Ea]. set (a := ev m AEHe e) in *. set (c := ev m ASib a).
  assert (Hc : inH m c) by (apply (ring_in _ _ _ R); auto). assert (Ec : ev m AEdge c = e) by (rewrite <- Ea; apply (ring_key _ _ _ R); auto).
  assert (N2 : ev m ASib c <> a).
  { intros Q. assert (X : false = true); [|discriminate]. apply Hb. intros h Hh Eh. destruct (ring_two m a h V Ha Hh ltac:(congruence) Q) as [-> | ->]; fold c; [exact Q|]. rewrite Q. reflexivity. }
  assert (N1 : c <> a) by (intros Q; apply N2; rewrite Q; exact Q).
  rewrite rdA_ok by (apply rdE; auto). cbn [bind]. fold a. rewrite rdA_ok by (apply rdH; auto). cbn [bind]. fold c.
  destruct (edgeHes_ok m V e He) as (l0 & El0 & ND & Ml). rewrite El in El0. injection El0 as <-.
  assert (L3 : (3 <= length l)%nat) by (apply (three_class m e a V Ha Ea N1 N2 l ND Ml)).
  destruct (separate_ok m a c l V Ha Hc ltac:(congruence) (not_eq_sym N1) ltac:(rewrite Ea; exact El) L3) as (m1 & -> & S). cbn [bind].
  destruct S as [V1 SE SF SA SN SP SO ST]. set (nE := gEFill m) in *.
  assert (H1 : forall h, inH m1 h <-> inH m h) by (intros h; unfold inH; pose proof (SF THe ltac:(discriminate)) as Q; cbn [gFill] in Q; rewrite Q; reflexivity).
  assert (He1 : 0 <= e < gEFill m1) by lia.
  destruct (edgeHes_ok m1 V1 e He1) as (l1 & El1 & ND1 & Ml1).
  assert (Less : (length l1 < length l)%nat).
  { assert (ND' : NoDup (a :: l1)).
    { constructor; auto. intros I. apply Ml1 in I as [_ I]. rewrite SN, Z.eqb_refl in I by auto. cbn [orb] in I. lia. }
    assert (I : incl (a :: l1) l).
    { intros x [<-|I]; [apply Ml; auto|]. apply Ml1 in I as [I1 I2]. apply H1 in I1. rewrite SN in I2 by auto. apply Ml. split; auto. destruct (_ || _); [lia|auto]. }
    pose proof (NoDup_incl_length ND' I) as Q. simpl in Q. lia. }
  destruct (IH m1 e l1 V1 He1 El1 ltac:(lia)) as (m' & -> & L). exists m'. split; [reflexivity|]. destruct L as [V' LE LF LA LO LN LW LD LK].
  assert (New : forall h, inH m h -> h = a \/ h = c -> ev m' AEdge h = nE /\ ev m' ASib h = (if h =? a then c else a)).
  { intros h Hh Q. assert (E1 : ev m1 AEdge h = nE) by (rewrite SN by auto; destruct Q as [-> | ->]; rewrite Z.eqb_refl, ?orb_true_r; auto).
    destruct (LO h ltac:(apply H1; auto) ltac:(lia)) as [Q1 Q2]. rewrite Q1, Q2. split; auto. destruct Q as [-> | ->]; [rewrite Z.eqb_refl; apply SP|rewrite (proj2 (Z.eqb_neq c a)) by auto; apply SP]. }
  assert (Old : forall h, inH m h -> h <> a -> h <> c -> ev m1 AEdge h = ev m AEdge h).
  { intros h Hh Q1 Q2. rewrite SN by auto. rewrite (proj2 (Z.eqb_neq _ _) Q1), (proj2 (Z.eqb_neq _ _) Q2). reflexivity. }
  constructor; auto.
  - lia.
  - intros t Ht. rewrite LF, SF; auto.
  - intros p h Hp. rewrite LA, SA; auto.
  - intros h Hh Q. assert (Na : h <> a) by (intros ->; contradiction). assert (Nc : h <> c) by (intros ->; contradiction).
    destruct (LO h ltac:(apply H1; auto)) as [Q1 Q2]; [rewrite Old by auto; exact Q|]. rewrite Q1, Q2, Old by auto. split; auto. apply SO; auto. congruence.
  - intros h Hh Q. destruct (Z.eq_dec h a) as [-> | Na]; [right; rewrite (proj1 (New a Ha (or_introl eq_refl))); lia|].
    destruct (Z.eq_dec h c) as [-> | Nc]; [right; rewrite (proj1 (New c Hc (or_intror eq_refl))); lia|].
    destruct (LN h ltac:(apply H1; auto) ltac:(rewrite Old; auto)) as [K|K]; [auto|right; lia].
  - intros h Hh Q. destruct (Z.eq_dec h a) as [-> | Na].
    { destruct (New a Ha (or_introl eq_refl)) as [_ K1]. destruct (New c Hc (or_intror eq_refl)) as [_ K2]. rewrite Z.eqb_refl in K1. rewrite (proj2 (Z.eqb_neq c a)) in K2 by auto. rewrite K1, K2. auto. }
    destruct (Z.eq_dec h c) as [-> | Nc].
    { destruct (New a Ha (or_introl eq_refl)) as [_ K1]. destruct (New c Hc (or_intror eq_refl)) as [_ K2]. rewrite Z.eqb_refl in K1. rewrite (proj2 (Z.eqb_neq c a)) in K2 by auto. rewrite K2, K1. auto. }
    apply LW; [apply H1; auto|]. destruct (Z.eq_dec (ev m AEdge h) e) as [K|K].
    + destruct (LN h ltac:(apply H1; auto) ltac:(rewrite Old; auto)) as [X|X]; [lia|exact X].
    + destruct (LO h ltac:(apply H1; auto) ltac:(rewrite Old; auto)) as [X _]. rewrite X, Old in Q by auto. pose proof (gv_edge m V h Hh). fold nE in H. lia.
  - intros h Hh Q. apply LD; [apply H1; auto|exact Q].
  - intros Q. exfalso. apply N2. exact (Q a Ha Ea).
Qed.

(** ** all edges *)
Lemma separateAll_ok m : GValid m -> exists m', gSeparateNonmanifoldEdges m = Ok m' /\ GValid m' /\ EdgesSplit m m' /\ TwoPerEdge m'.
Proof.
  intros V. set (nE := gEFill m).
  assert (G : forall k, (k <= Z.to_nat nE)%nat -> exists m', foldM (fun m e => let* h := rdA m AEHe e in if h =? INVALID then Ok m else gSeparateLoop (gFuel m) m e) (map Z.of_nat (seq 0 k)) m = Ok m' /\
    GValid m' /\ EdgesSplit m m' /\ forall h, inH m h -> 0 <= ev m' AEdge h < Z.of_nat k -> ev m' ASib (ev m' ASib h) = h).
  { induction k as [|k IH]; intros Hk.
    - exists m. split; [reflexivity|]. split; auto. split; [|intros h Hh Q; lia]. constructor; auto; try lia. intros h Hh Q. pose proof (gv_edge m V h Hh). lia.
    - destruct (IH ltac:(lia)) as (m1 & E1 & V1 & S & T). rewrite seq_S, map_app, foldM_app, E1. cbn [map foldM bind]. rewrite Nat.add_0_l.
      set (e := Z.of_nat k). destruct S as [S1 S2 S3 S4 S5 S6 S7]. assert (He : 0 <= e < gEFill m1) by (unfold e; fold nE in S2; lia).
      assert (H1 : forall h, inH m1 h <-> inH m h) by (intros h; unfold inH; pose proof (S1 THe ltac:(discriminate)) as Q; cbn [gFill] in Q; rewrite Q; reflexivity).
      destruct (gv_ehe m1 V1 e He) as [Hh Eh]. rewrite rdA_ok by (apply rdE; [apply valid_fits|reflexivity|]; auto). cbn [bind].
      rewrite (proj2 (Z.eqb_neq _ _)) by (red in Hh; unfold INVALID; lia).
      destruct (edgeHes_ok m1 V1 e He) as (l & El & ND & Ml).
      destruct (loop_ok (gFuel m1) m1 e l V1 He El) as (m2 & -> & L).
      { assert (I : incl l (zseq (gHeFill m1))) by (intros x I; apply Ml in I as [I _]; apply zseq_In; exact I). pose proof (NoDup_incl_length ND I) as Q.
        unfold zseq in Q. rewrite map_length, seq_length in Q. unfold gFuel. lia. }
      cbn [bind]. exists m2. split; [reflexivity|]. destruct L as [V2 L1 L2 L3 L4 L5 L6 L7 L8]. split; [exact V2|].
      assert (Cases : forall h, inH m h -> (ev m1 AEdge h <> e /\ ev m2 AEdge h = ev m1 AEdge h /\ ev m2 ASib h = ev m1 ASib h) \/
         (ev m1 AEdge h = e /\ ev m2 AEdge h = e) \/ (ev m1 AEdge h = e /\ gEFill m1 <= ev m2 AEdge h)).
      { intros h Hh0. destruct (Z.eq_dec (ev m1 AEdge h) e) as [Q|Q]; [|left; split; auto; apply L4; auto; apply H1; auto].
        destruct (L5 h ltac:(apply H1; auto) Q); auto. }
      assert (Ofe : forall h, inH m h -> ev m1 AEdge h = e -> ev m AEdge h = e).
      { intros h Hh0 Q. destruct (S4 h Hh0) as [X|X]; [congruence|]. rewrite Q in X. fold nE in X. unfold e in X. lia. }
      split.
      + constructor.
        * intros t Ht. rewrite L2, S1; auto.
        * lia.
        * intros p h Hp. rewrite L3, S3; auto.
        * intros h Hh0. destruct (Cases h Hh0) as [(_ & Q & _)|[(Q1 & Q2)|(Q1 & Q2)]]; [rewrite Q; apply S4; auto|left; rewrite Q2; symmetry; apply Ofe; auto|right; lia].
        * intros h Hh0 Q. destruct (Cases h Hh0) as [(_ & Q1 & Q2)|[(Q1 & Q2)|(Q1 & Q2)]].
          -- rewrite Q1 in Q. destruct (S5 h Hh0 Q) as [A1 A2]. rewrite Q2. split; auto.
             set (s := ev m1 ASib h) in *. pose proof (gv_sib m1 V1) as R1. assert (Hs : inH m1 s) by (apply (ring_in _ _ _ R1), H1; auto).
             assert (Es : ev m1 AEdge s = ev m1 AEdge h) by (apply (ring_key _ _ _ R1), H1; auto).
             destruct (L4 s Hs) as [_ X]; [rewrite Es; fold nE in Q; unfold e; lia|]. rewrite X. exact A2.
          -- rewrite Q2 in Q. fold nE in Q. unfold e in Q. lia.
          -- apply L6; [apply H1; auto|exact Q2].
        * intros a b Ha Hb Q. destruct (Cases a Ha) as [(N1 & A1 & A2)|[(A1 & A2)|(A1 & A2)]]; destruct (Cases b Hb) as [(N2 & B1 & B2)|[(B1 & B2)|(B1 & B2)]];
            first [apply S6; auto; congruence|pose proof (gv_edge m1 V1 a ltac:(apply H1; auto)); pose proof (gv_edge m1 V1 b ltac:(apply H1; auto)); exfalso; clear - A1 A2 B1 B2 Q H H0 He; lia|idtac].
          all: exfalso; congruence.
        * intros h Hh0 Q. destruct (S7 h Hh0 Q) as [A1 A2]. destruct (Z.eq_dec (ev m1 AEdge h) e) as [K|K].
          -- rewrite L8; auto. intros x Hx Ex. apply H1 in Hx. pose proof (Ofe x Hx Ex) as Ex0. pose proof (Ofe h Hh0 K) as Eh0.
             assert (Qs : ev m1 ASib (ev m1 ASib h) = h).
             { rewrite A2. set (s := ev m ASib h) in *. pose proof (gv_sib m V) as R. assert (Hs : inH m s) by (apply (ring_in _ _ _ R); auto).
               assert (Qss : ev m ASib (ev m ASib s) = s) by (rewrite Q; reflexivity). destruct (S7 s Hs Qss) as [_ X]. rewrite X. exact Q. }
             destruct (ring_two m1 h x V1 ltac:(apply H1; auto) ltac:(apply H1; auto) ltac:(congruence) Qs) as [-> | ->]; [exact Qs|]. rewrite Qs. reflexivity.
          -- destruct (L4 h ltac:(apply H1; auto) K) as [X1 X2]. rewrite X1, X2. auto.
      + intros h Hh0 Q. destruct (Cases h Hh0) as [(N1 & A1 & A2)|[(A1 & A2)|(A1 & A2)]].
        * rewrite A1 in Q. rewrite A2. assert (K : ev m1 ASib (ev m1 ASib h) = h) by (apply T; auto; unfold e in N1; lia).
          set (s := ev m1 ASib h) in *. pose proof (gv_sib m1 V1) as R1. assert (Hs : inH m1 s) by (apply (ring_in _ _ _ R1), H1; auto).
          assert (Es : ev m1 AEdge s = ev m1 AEdge h) by (apply (ring_key _ _ _ R1), H1; auto).
          destruct (L4 s Hs) as [_ X]; [congruence|]. rewrite X. exact K.
        * apply L7; [apply H1; auto|exact A2].
        * unfold e in *. lia. }
  destruct (G (Z.to_nat nE) (le_n _)) as (m' & E & V' & S & T). exists m'. unfold gSeparateNonmanifoldEdges, zseq. fold nE. rewrite E. split; [reflexivity|]. split; auto. split; auto.
  assert (H1 : forall h, inH m' h <-> inH m h) by (intros h; unfold inH; pose proof (es_fill _ _ S THe ltac:(discriminate)) as Q; cbn [gFill] in Q; rewrite Q; reflexivity).
  intros h Hh. pose proof (gv_edge m' V' h Hh) as K. apply H1 in Hh. destruct (es_edge _ _ S h Hh) as [Q|Q].
  - apply T; auto. pose proof (gv_edge m V h Hh). fold nE in H. lia.
  - apply (es_new _ _ S); auto.
Qed.

Lemma separateOne_ok m a b : GValid m -> inH m a -> inH m b ->
  (ev m AEdge a <> ev m AEdge b \/ a = b -> gSeparateToNewEdge m a b = Throw) /\
  (ev m AEdge a = ev m AEdge b -> a <> b -> (forall x, inH m x -> ev m AEdge x = ev m AEdge a -> x = a \/ x = b) -> gSeparateToNewEdge m a b = Ok (m, ev m AEdge a)) /\
  (ev m AEdge a = ev m AEdge b -> a <> b -> (exists x, inH m x /\ ev m AEdge x = ev m AEdge a /\ x <> a /\ x <> b) ->
     exists m', gSeparateToNewEdge m a b = Ok (m', gEFill m) /\ Separated m m' a b).
Proof.
  intros V Ha Hb. pose proof (valid_fits m V) as F. pose proof (gv_edge m V a Ha) as He. destruct (edgeHes_ok m V _ He) as (l & El & ND & Ml).
  split; [|split].
  - intros Q. unfold gSeparateToNewEdge. rewrite !rdA_ok by (apply rdH; auto). cbn [bind]. destruct (Z.eqb_spec (ev m AEdge a) (ev m AEdge b)) as [E|E]; cbn [guard bind]; [|reflexivity].
    destruct Q as [Q | ->]; [contradiction|]. rewrite Z.eqb_refl. reflexivity.
  - intros E N Q. unfold gSeparateToNewEdge. rewrite !rdA_ok by (apply rdH; auto). cbn [bind]. rewrite <- E, Z.eqb_refl. cbn [guard bind].
    rewrite (proj2 (Z.eqb_neq _ _) N). cbn [negb guard bind]. unfold gEdgeDegree. rewrite El. cbn [bind].
    assert (I : incl l [a; b]) by (intros x I; apply Ml in I as [I1 I2]; destruct (Q x I1 I2) as [-> | ->]; simpl; auto).
    pose proof (NoDup_incl_length ND I) as K. simpl in K. rewrite (proj2 (Z.leb_le (Z.of_nat (length l)) 2)) by lia. reflexivity.
  - intros E N (x & X1 & X2 & X3 & X4). apply (separate_ok m a b l V Ha Hb E N El).
    assert (ND3 : NoDup [a; b; x]) by (repeat constructor; simpl; intuition congruence).
    apply (NoDup_incl_length ND3). intros y [<-|[<-|[<-|[]]]]; apply Ml; auto.
Qed.
