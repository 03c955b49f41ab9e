(** greedilyOrientFaces *)
From Verif Require Import Base MeshModel MeshSpec MeshBase GenModel GenSpec GenBase GenBuild1 GenBuild6 GenOpsModel GenOpsSpec GenOps1 GenOps2 GenOps3 GenSep2 GenTopoModel GenOrientSpec.
Open Scope Z_scope.

(** ** edges seen from one of their halfedges *)
Lemma twins_sym m a b : Twins m a b -> Twins m b a. Proof. unfold Twins. intuition. Qed.
Lemma boundary_at m h : GValid m -> inH m h -> gEdgeIsBoundary m (ev m AEdge h) = Ok (ev m ASib h =? h).
Proof.
  intros V Hh. pose proof (valid_fits m V) as F. pose proof (gv_edge m V h Hh) as He. destruct (gv_ehe m V _ He) as [A B]. unfold gEdgeIsBoundary.
  rewrite rdA_ok by (apply rdE; auto). cbn [bind]. rewrite rdA_ok by (apply rdH; auto). cbn [bind]. f_equal. apply Bool.eq_iff_eq_true. rewrite !Z.eqb_eq. split; intros Q.
  - destruct (ring_two m _ h V A Hh (eq_sym B)) as [E|E]; [rewrite Q; exact Q| |]; rewrite E; rewrite ?Q; congruence.
  - destruct (ring_two m h _ V Hh A B) as [E|E]; [rewrite Q; exact Q| |]; rewrite E; rewrite ?Q; congruence.
Qed.
Lemma manifold_at m h : GValid m -> inH m h -> gEdgeIsManifold m (ev m AEdge h) = Ok (ev m ASib (ev m ASib h) =? h).
Proof.
  intros V Hh. pose proof (gv_edge m V h Hh) as He. destruct (manifold_ok m _ V He) as (b & -> & Q). f_equal. apply Bool.eq_iff_eq_true. rewrite Q, Z.eqb_eq. split; [intros K; apply K; auto|].
  intros K x Hx Ex. destruct (ring_two m h x V Hh Hx Ex K) as [-> | ->]; [exact K|]. rewrite K. reflexivity.
Qed.
Lemma oriented_at m h : GValid m -> inH m h -> ev m ASib (ev m ASib h) = h -> ev m ASib h <> h ->
  gEdgeIsOriented m (ev m AEdge h) = Ok (negb (ev m AOri h =? ev m AOri (ev m ASib h))).
Proof.
  intros V Hh Q N. pose proof (valid_fits m V) as F. pose proof (gv_edge m V h Hh) as He. destruct (gv_ehe m V _ He) as [A B]. unfold gEdgeIsOriented.
  assert (IS : forall x, inH m x -> inH m (ev m ASib x)) by (intros x Hx; apply (proj1 (gv_sib m V) x Hx)).
  rewrite rdA_ok by (apply rdE; auto). cbn [bind]. rewrite rdA_ok by (apply rdH; auto). cbn [bind].
  destruct (ring_two m h _ V Hh A B Q) as [E|E]; rewrite E; rewrite ?Q.
  - rewrite (proj2 (Z.eqb_neq h (ev m ASib h))) by congruence. rewrite rdA_ok by (apply rdH; auto). cbn [bind]. rewrite Q, Z.eqb_refl. cbn [negb].
    rewrite !rdA_ok by (apply rdH; auto). reflexivity.
  - rewrite (proj2 (Z.eqb_neq _ _)) by congruence. rewrite rdA_ok by (apply rdH; auto). cbn [bind]. rewrite Z.eqb_refl. cbn [negb].
    rewrite !rdA_ok by (apply rdH; auto). cbn [bind]. rewrite Z.eqb_sym. reflexivity.
Qed.

(** ** one more face turned round *)
Lemma turned_refl m : Turned m m (fun _ => false).
Proof. constructor; auto. discriminate. Qed.
Lemma turned_ext m m' T T' : (forall f, T f = T' f) -> Turned m m' T -> Turned m m' T'.
Proof. intros E [A B C D]. constructor; auto; intros h Hh Q; rewrite <- E in Q; auto. Qed.
Lemma turned_more m m1 m2 T f : GValid m -> Turned m m1 T -> Inverted m1 m2 f -> T f = false -> Turned m m2 (fun g => if g =? f then true else T g).
Proof.
  intros V [A B C D] [A2 B2 C2 D2] Tf. assert (IH : forall h, inH m1 h <-> inH m h) by (intros; unfold inH; pose proof (A THe) as Q; cbn [gFill] in Q; rewrite Q; reflexivity).
  constructor.
  - intros t. rewrite A2. auto.
  - intros a h Ha. rewrite B2 by auto. auto.
  - intros h Hh Q. assert (Fh : ev m1 AFace h = ev m AFace h) by (apply B; simpl; auto). destruct (Z.eqb_spec (ev m AFace h) f) as [E|E].
    + rewrite <- E in Tf. destruct (D h Hh Tf) as (D1 & D3 & D4 & D5). destruct (C2 h (proj2 (IH h) Hh) ltac:(congruence)) as (E1 & E3 & E4 & E5).
      rewrite E1, E3, E4, D1, D3, D4. rewrite D5 in E5. auto.
    + destruct (C h Hh Q) as (D1 & D3 & D4 & D5). destruct (D2 h (proj2 (IH h) Hh) ltac:(congruence)) as (E1 & E3 & E4 & E5). rewrite E1, E3, E4, D1, D3, D4.
      repeat (split; [reflexivity|]). destruct (proj1 (gv_next m V) h Hh) as [Hn Fn]. fold (inH m (ev m ANext h)) in Hn.
      destruct (D2 (ev m ANext h) (proj2 (IH _) Hn)) as (_ & _ & _ & ->); [rewrite B by (simpl; auto); congruence|exact D5].
  - intros h Hh Q. assert (Fh : ev m1 AFace h = ev m AFace h) by (apply B; simpl; auto). destruct (Z.eqb_spec (ev m AFace h) f) as [E|E]; [discriminate|].
    destruct (D h Hh Q) as (D1 & D3 & D4 & D5). destruct (D2 h (proj2 (IH h) Hh) ltac:(congruence)) as (E1 & E3 & E4 & E5). rewrite E1, E3, E4, E5, D1, D3, D4, D5. auto.
Qed.

Section G.
Context (m0 : gmesh) (V0 : GValid m0) (C : Z -> Prop) (s : Z -> bool) (CL : ClosedSet m0 C) (CS : orientedBy m0 C s).
Notation F := (gFFill m0).
Notation fc := (ev m0 AFace).
Definition turn (T : Z -> bool) (f : Z) : bool := xorb (T f) (s f).
(** the faces marked so far *)
Definition Mark (P : list Z) (f : Z) : Prop := getZ P f <> 0.
Record Base (m : gmesh) (P : list Z) (T : Z -> bool) : Prop := {
  s_valid : GValid m; s_turn : Turned m0 m T; s_len : F <= zlen P;
  s_fresh : forall f, 0 <= f < F -> getZ P f = 0 -> T f = false }.
(** [Q]: the faces of the present search; [X]: those whose neighbours may still be unmarked *)
Record Srch (m : gmesh) (P : list Z) (T Q : Z -> bool) (X : Z -> Prop) : Prop := {
  r_base : Base m P T;
  r_Q : forall f, Q f = true -> 0 <= f < F /\ Mark P f;
  r_old : forall a b, Twins m0 a b -> Mark P (fc a) -> Q (fc a) = false -> Mark P (fc b) /\ Q (fc b) = false /\ (C (fc a) -> turn T (fc a) = turn T (fc b));
  r_closed : forall a b, Twins m0 a b -> Q (fc a) = true -> ~ X (fc a) -> Mark P (fc b);
  r_same : forall f g, Q f = true -> Q g = true -> (C f -> C g /\ turn T f = turn T g) }.
Definition unmarked (P : list Z) : Z := countb (fun f => getZ P f =? 0) F.

Lemma face_in h : inH m0 h -> 0 <= fc h < F. Proof. apply (gv_face m0 V0). Qed.
Lemma inH_same m P T h : Base m P T -> (inH m h <-> inH m0 h).
Proof. intros B. unfold inH. pose proof (tn_size _ _ _ (s_turn _ _ _ B) THe) as Q. cbn [gFill] in Q. rewrite Q. reflexivity. Qed.
Lemma ori_turn m T h : Turned m0 m T -> inH m0 h -> (ev m AOri h =? 1) = xorb (ev m0 AOri h =? 1) (T (fc h)).
Proof.
  intros U Hh. pose proof (gv_bit m0 V0 h Hh) as B. destruct (T (fc h)) eqn:E.
  - destruct (tn_in _ _ _ U h Hh E) as (_ & _ & -> & _). destruct B as [-> | ->]; reflexivity.
  - destruct (tn_out _ _ _ U h Hh E) as (_ & _ & -> & _). destruct B as [-> | ->]; reflexivity.
Qed.

Lemma step_ok m todo P T Q X curr h : Srch m P T Q X -> Q curr = true -> inH m0 h -> fc h = curr -> (forall f, In f todo -> X f) ->
  exists m' todo' P' T' Q', gOrientStep (m, todo, P) h = Ok (m', todo', P') /\ Srch m' P' T' Q' (fun f => X f \/ In f todo') /\
    (forall f, In f todo' -> Q' f = true \/ In f todo) /\ incl todo todo' /\ (forall f, Q f = true -> Q' f = true) /\ (forall f, Mark P f -> Mark P' f) /\ (forall b, Twins m0 h b -> Mark P' (fc b)) /\
    Z.of_nat (length todo') + unmarked P' = Z.of_nat (length todo) + unmarked P /\ zlen P' = zlen P.
Proof.
  intros R Qc Hh Fc XT. pose proof (r_base _ _ _ _ _ R) as B. pose proof (s_valid _ _ _ B) as V. pose proof (s_turn _ _ _ B) as U. pose proof (valid_fits m V) as FT.
  pose proof (proj2 (inH_same m P T h B) Hh) as Hm. assert (SB : forall x, ev m ASib x = ev m0 ASib x) by (intros; apply (tn_arr _ _ _ U); simpl; auto).
  assert (FC : forall x, ev m AFace x = fc x) by (intros; apply (tn_arr _ _ _ U); simpl; auto).
  assert (STAY : (forall b, Twins m0 h b -> Mark P (fc b)) -> exists m' todo' P' T' Q', Ok (m, todo, P) = Ok (m', todo', P') /\ Srch m' P' T' Q' (fun f => X f \/ In f todo') /\
    (forall f, In f todo' -> Q' f = true \/ In f todo) /\ incl todo todo' /\ (forall f, Q f = true -> Q' f = true) /\ (forall f, Mark P f -> Mark P' f) /\ (forall b, Twins m0 h b -> Mark P' (fc b)) /\
    Z.of_nat (length todo') + unmarked P' = Z.of_nat (length todo) + unmarked P /\ zlen P' = zlen P).
  { intros K. exists m, todo, P, T, Q. split; [reflexivity|]. split; [|split; [auto|split; [apply incl_refl|auto 10]]].
    destruct R as [R1 R2 R3 R4 R5]. constructor; auto. intros a b Tw Qa NX. apply (R4 a b); auto. }
  unfold gOrientStep. rewrite rdA_ok by (apply rdH; auto). cbn [bind]. rewrite boundary_at by auto. cbn [bind]. destruct (Z.eqb_spec (ev m ASib h) h) as [E1|E1].
  { apply STAY. intros b (_ & _ & N & E & _). rewrite SB in E1. congruence. }
  rewrite manifold_at by auto. cbn [bind]. destruct (Z.eqb_spec (ev m ASib (ev m ASib h)) h) as [E2|E2]; cbn [negb].
  2:{ apply STAY. intros b (_ & _ & N & E & E'). rewrite !SB in E2. congruence. }
  rewrite rdA_ok by (apply rdH; auto). cbn [bind]. set (b := ev m ASib h) in *.
  assert (Hbm : inH m b) by (apply (proj1 (gv_sib m V) h Hm)). pose proof (proj1 (inH_same m P T b B) Hbm) as Hb.
  assert (TW : Twins m0 h b) by (unfold Twins; unfold b in *; rewrite <- !SB; intuition congruence).
  assert (TWU : forall b', Twins m0 h b' -> b' = b) by (intros b' (_ & _ & _ & E & _); unfold b; rewrite SB; auto).
  rewrite rdA_ok by (apply rdH; auto). cbn [bind]. rewrite FC. set (g := fc b) in *. pose proof (face_in b Hb) as Hg. fold g in Hg. pose proof (s_len _ _ _ B) as LP.
  rewrite rdZ_ok by lia. cbn [bind]. destruct (Z.eqb_spec (getZ P g) 0) as [E3|E3]; cbn [negb].
  2:{ apply STAY. intros b' T'. rewrite (TWU b' T'). exact E3. }
  rewrite oriented_at by auto. cbn [bind]. fold b. pose proof (s_fresh _ _ _ B g Hg E3) as Tg.
  assert (QG : Q g = false) by (destruct (Q g) eqn:E; auto; destruct (r_Q _ _ _ _ _ R g E) as [_ K]; contradiction).
  (* the mesh afterwards *)
  assert (EX : exists m1 T1, (if negb (ev m AOri h =? ev m AOri b) then Ok m else gInvertOrientation m g) = Ok m1 /\ GValid m1 /\ Turned m0 m1 T1 /\ (forall f, f <> g -> T1 f = T f) /\
    (ev m1 AOri h =? 1) <> (ev m1 AOri b =? 1)).
  { assert (BIT : forall x, inH m x -> ev m AOri x = 0 \/ ev m AOri x = 1) by apply (gv_bit m V). pose proof (BIT h Hm) as Bh. pose proof (BIT b Hbm) as Bb.
    destruct (Z.eqb_spec (ev m AOri h) (ev m AOri b)) as [E|E]; cbn [negb].
    - assert (Hgm : 0 <= g < gFFill m) by (pose proof (tn_size _ _ _ U TFc) as K; cbn [gFill] in K; lia).
      destruct (invert_ok m g V Hgm) as (m1 & E' & V1 & IV & _). exists m1, (fun f => if f =? g then true else T f). split; auto. split; auto. split; [eapply turned_more; eauto|].
      split; [intros f Nf; rewrite (proj2 (Z.eqb_neq _ _) Nf); reflexivity|].
      destruct (iv_in _ _ _ IV b Hbm (FC b)) as (_ & _ & -> & _).
      destruct (iv_out _ _ _ IV h Hm) as (_ & _ & -> & _). { rewrite FC, Fc. intros K. rewrite K in Qc. congruence. }
      rewrite E. destruct Bb as [-> | ->]; discriminate.
    - exists m, T. split; auto. split; auto. split; auto. split; auto. destruct Bh as [Bh|Bh], Bb as [Bb|Bb]; rewrite Bh, Bb in *; try discriminate; congruence. }
  destruct EX as (m1 & T1 & -> & V1 & U1 & TT & OR). cbn [bind]. rewrite wrZ_ok by lia. cbn [bind].
  set (P1 := updZ P g 1). assert (GP : forall f, getZ P1 f = if f =? g then 1 else getZ P f) by (intros f; unfold P1; apply getZ_updZ; lia).
  assert (MK : forall f, Mark P1 f <-> Mark P f \/ f = g). { intros f. unfold Mark. rewrite GP. destruct (Z.eqb_spec f g); [split; [auto|lia]|tauto]. }
  assert (NG : ~ Mark P g) by (unfold Mark; lia).
  assert (TU : forall f, f <> g -> turn T1 f = turn T f) by (intros f Nf; unfold turn; rewrite TT; auto).
  set (Q1 := fun f => if f =? g then true else Q f).
  assert (KEY : C curr -> C g /\ turn T curr = turn T1 g).
  { intros Cc. rewrite <- Fc in Cc. split; [apply (CL h b TW Cc)|]. pose proof (CS h b TW Cc) as K. rewrite !(ori_turn m1 T1) in OR by auto.
    rewrite <- (TU curr) by (intros ->; congruence). rewrite <- Fc. unfold turn. fold g in OR, K |- *. clear - OR K.
    destruct (ev m0 AOri h =? 1), (ev m0 AOri b =? 1), (s (fc h)), (s g), (T1 (fc h)), (T1 g); simpl in *; congruence. }
  exists m1, (g :: todo), P1, T1, Q1. split; [reflexivity|]. split; [|split; [|split; [|split; [|split; [|split; [|split]]]]]].
  - constructor.
    + constructor; auto; [unfold P1; rewrite zlen_updZ; auto|]. intros f Hf K. rewrite GP in K. destruct (Z.eqb_spec f g); [lia|]. rewrite TT by auto. apply (s_fresh _ _ _ B); auto.
    + intros f. unfold Q1. destruct (Z.eqb_spec f g) as [->|]; [intros _; split; auto; apply MK; auto|]. intros K. destruct (r_Q _ _ _ _ _ R f K). split; auto. apply MK; auto.
    + intros x y Txy Mx Qx. unfold Q1 in Qx. destruct (Z.eqb_spec (fc x) g) as [|Nx]; [discriminate|]. apply MK in Mx as [Mx|]; [|contradiction].
      destruct (r_old _ _ _ _ _ R x y Txy Mx Qx) as (K1 & K2 & K3). assert (Ny : fc y <> g) by (intros K; rewrite K in K1; contradiction).
      split; [apply MK; auto|]. unfold Q1. rewrite (proj2 (Z.eqb_neq _ _) Ny). split; auto. rewrite !TU by auto. exact K3.
    + intros x y Txy Qx NX. unfold Q1 in Qx. destruct (Z.eqb_spec (fc x) g) as [Ex|Nx]; [exfalso; apply NX; right; left; auto|]. apply MK. left. apply (r_closed _ _ _ _ _ R x y); auto.
    + assert (RS : forall f, Q f = true -> (C f -> C g /\ turn T1 f = turn T1 g) /\ (C g -> C f /\ turn T1 g = turn T1 f)).
      { intros f Qf. assert (Nf : f <> g) by congruence. rewrite (TU f Nf). split.
        - intros Cf. destruct (r_same _ _ _ _ _ R f curr Qf Qc Cf) as [K1 K2]. destruct (KEY K1). split; auto. congruence.
        - intros Cg. assert (Cc : C curr) by (rewrite <- Fc; apply (CL b h (twins_sym _ _ _ TW)); exact Cg). destruct (KEY Cc) as [_ K]. destruct (r_same _ _ _ _ _ R curr f Qc Qf Cc) as [K1 K2]. split; auto. congruence. }
      intros f g'. unfold Q1. destruct (Z.eqb_spec f g) as [->|Nf], (Z.eqb_spec g' g) as [->|Ng]; intros Qf Qg Cf.
      * auto. * apply (RS g'); auto. * apply (RS f); auto. * rewrite !TU by auto. apply (r_same _ _ _ _ _ R f g' Qf Qg Cf).
  - intros f [<-|Hf]; auto. left. unfold Q1. rewrite Z.eqb_refl. reflexivity.
  - intros f Hf. right. auto.
  - intros f Qf. unfold Q1. destruct (f =? g); auto.
  - intros f Mf. apply MK; auto.
  - intros b' T'. rewrite (TWU b' T'). apply MK. auto.
  - unfold unmarked. pose proof (countb_upd (fun f => getZ P f =? 0) (fun f => getZ P1 f =? 0) F g Hg) as K. cbn [length]. cbv beta in K. rewrite (GP g), Z.eqb_refl, E3 in K. cbn [Z.eqb b2z] in K.
    assert (K' : forall j, 0 <= j < F -> j <> g -> (getZ P j =? 0) = (getZ P1 j =? 0)) by (intros j Hj Nj; rewrite GP, (proj2 (Z.eqb_neq _ _) Nj); reflexivity).
    specialize (K K'). lia.
  - unfold P1. apply zlen_updZ.
Qed.

Lemma srch_X m P T Q (X X' : Z -> Prop) : (forall f, Q f = true -> X f -> X' f) -> Srch m P T Q X -> Srch m P T Q X'.
Proof. intros I [R1 R2 R3 R4 R5]. constructor; auto. intros a b Tw Qa NX. apply (R4 a b); auto. Qed.
Lemma scan_ok hs : forall m todo P T Q curr, Srch m P T Q (fun f => f = curr \/ In f todo) -> Q curr = true -> (forall h, In h hs -> inH m0 h /\ fc h = curr) -> (forall f, In f todo -> Q f = true) ->
  exists m' todo' P' T' Q', foldM gOrientStep hs (m, todo, P) = Ok (m', todo', P') /\ Srch m' P' T' Q' (fun f => f = curr \/ In f todo') /\ Q' curr = true /\
    (forall f, In f todo' -> Q' f = true) /\ (forall f, Mark P f -> Mark P' f) /\ (forall h b, In h hs -> Twins m0 h b -> Mark P' (fc b)) /\
    Z.of_nat (length todo') + unmarked P' = Z.of_nat (length todo) + unmarked P /\ zlen P' = zlen P.
Proof.
  induction hs as [|h hs IH]; intros m todo P T Q curr R Qc HS TQ; cbn [foldM].
  - exists m, todo, P, T, Q. split; [reflexivity|]. split; auto. split; auto. split; auto. split; auto. split; [intros h b []|auto].
  - destruct (HS h (or_introl eq_refl)) as [Hh Fh]. destruct (step_ok m todo P T Q _ curr h R Qc Hh Fh (fun f K => or_intror K)) as (m1 & todo1 & P1 & T1 & Q1 & -> & R1 & A1 & A2 & A3 & A4 & A5 & A6 & A7). cbn [bind].
    assert (TQ1 : forall f, In f todo1 -> Q1 f = true) by (intros f Hf; destruct (A1 f Hf); auto).
    destruct (IH m1 todo1 P1 T1 Q1 curr) as (m2 & todo2 & P2 & T2 & Q2 & E2 & R2 & B1 & B2 & B3 & B4 & B5 & B6); auto.
    { eapply srch_X; [|exact R1]. cbv beta. intros f _ [[K|K]|K]; auto. }
    { intros x Hx. apply HS. right. auto. }
    exists m2, todo2, P2, T2, Q2. split; auto. split; auto. split; auto. split; auto. split; auto. split; [|split; [lia|congruence]].
    intros x b [<-|Hx] Tw; [apply B3, A5; auto|apply (B4 x b); auto].
Qed.
Lemma search_ok fuel : forall m todo P T Q, Srch m P T Q (fun f => In f todo) -> (forall f, In f todo -> Q f = true) -> Z.of_nat (length todo) + unmarked P <= Z.of_nat fuel ->
  exists m' P' T' Q', gOrientSearch fuel m todo P = Ok (m', P') /\ Srch m' P' T' Q' (fun _ => False) /\ (forall f, Mark P f -> Mark P' f) /\ zlen P' = zlen P.
Proof.
  induction fuel as [|fuel IH]; intros m todo P T Q R TQ L; (destruct todo as [|curr todo]; [exists m, P, T, Q; cbn [gOrientSearch]; auto|]).
  - exfalso. pose proof (countb_nonneg (fun f => getZ P f =? 0) F) as K. unfold unmarked in L. cbn [length] in L. lia.
  - cbn [gOrientSearch]. pose proof (r_base _ _ _ _ _ R) as B. pose proof (s_valid _ _ _ B) as V. pose proof (s_turn _ _ _ B) as U. pose proof (TQ curr (or_introl eq_refl)) as Qc.
    destruct (r_Q _ _ _ _ _ R curr Qc) as [Hc _].
    assert (Hcm : 0 <= curr < gFFill m) by (pose proof (tn_size _ _ _ U TFc) as K; cbn [gFill] in K; lia). destruct (proj1 (circulators_all m V) curr Hcm) as (hs & -> & _ & IHS). cbn [bind].
    assert (HS : forall h, In h hs <-> inH m0 h /\ fc h = curr). { intros h. rewrite IHS, (inH_same m P T h B), (tn_arr _ _ _ U) by (simpl; auto). reflexivity. }
    destruct (scan_ok hs m todo P T Q curr) as (m1 & todo1 & P1 & T1 & Q1 & -> & R1 & B1 & B2 & B3 & B4 & B5 & B6); auto.
    { eapply srch_X; [|exact R]. cbv beta. intros f _ [K|K]; auto. }
    { intros h Hh. apply HS; auto. }
    { intros f Hf. apply TQ. right. auto. }
    cbn [bind]. destruct (IH m1 todo1 P1 T1 Q1) as (m2 & P2 & T2 & Q2 & E2 & R2 & C1 & C2); auto.
    { destruct R1 as [R11 R12 R13 R14 R15]. constructor; auto. intros a b Tw Qa NX. destruct (Z.eq_dec (fc a) curr) as [E|N]; [|apply (R14 a b); auto; tauto].
      apply (B4 a b); auto. apply HS. split; auto. apply Tw. }
    { cbn [length] in L. lia. }
    exists m2, P2, T2, Q2. split; auto. split; auto. split; auto. congruence.
Qed.
Definition Done (m : gmesh) (P : list Z) (T : Z -> bool) : Prop := Srch m P T (fun _ => false) (fun _ => False).
Lemma finish m P T Q : Srch m P T Q (fun _ => False) -> Done m P T.
Proof.
  intros [R1 R2 R3 R4 R5]. constructor; auto; try discriminate. intros a b Tw Ma _. destruct (Q (fc a)) eqn:Qa.
  - pose proof (R4 a b Tw Qa (fun K => K)) as Mb. split; auto. split; auto. destruct (Q (fc b)) eqn:Qb; [intros Ca; apply R5; auto|]. exfalso. destruct (R3 b a (twins_sym _ _ _ Tw) Mb Qb) as (_ & K & _). congruence.
  - destruct (R3 a b Tw Ma Qa) as (K1 & K2 & K3). auto.
Qed.
Definition orientFace (st : gmesh * list Z) (f : Z) : res (gmesh * list Z) :=
  let '(m, processed) := st in
  let* p := rdZ processed f in if negb (p =? 0) then Ok st else
  let* processed := wrZ processed f 1 in gOrientSearch (Datatypes.S (Z.to_nat (gFFill m))) m [f] processed.
Lemma face_ok m P T f : Done m P T -> 0 <= f < F -> exists m' P' T', orientFace (m, P) f = Ok (m', P') /\ Done m' P' T' /\ (forall g, Mark P g -> Mark P' g) /\ Mark P' f.
Proof.
  intros D Hf. pose proof (r_base _ _ _ _ _ D) as B. pose proof (s_len _ _ _ B) as LP. unfold orientFace. rewrite rdZ_ok by lia. cbn [bind]. destruct (Z.eqb_spec (getZ P f) 0) as [E|E]; cbn [negb].
  2:{ exists m, P, T. auto. }
  rewrite wrZ_ok by lia. cbn [bind]. set (P1 := updZ P f 1). assert (GP : forall g, getZ P1 g = if g =? f then 1 else getZ P g) by (intros g; unfold P1; apply getZ_updZ; lia).
  assert (MK : forall g, Mark P1 g <-> Mark P g \/ g = f). { intros g. unfold Mark. rewrite GP. destruct (Z.eqb_spec g f); [split; [auto|lia]|tauto]. }
  assert (SIZE : gFFill m = F) by (pose proof (tn_size _ _ _ (s_turn _ _ _ B) TFc) as K; exact K).
  destruct (search_ok (Datatypes.S (Z.to_nat (gFFill m))) m [f] P1 T (fun g => g =? f)) as (m' & P' & T' & Q' & E' & R' & M' & _).
  - destruct D as [[D1 D2 D3 D4] _ D5 _ _]. constructor.
    + constructor; auto; [unfold P1; rewrite zlen_updZ; auto|]. intros g Hg K. rewrite GP in K. destruct (Z.eqb_spec g f); [lia|]. auto.
    + intros g K. apply Z.eqb_eq in K. subst g. split; auto. apply MK; auto.
    + intros a b Tw Ma Na. apply Z.eqb_neq in Na. apply MK in Ma as [Ma|]; [|contradiction]. destruct (D5 a b Tw Ma eq_refl) as (K1 & _ & K3). split; [apply MK; auto|]. split; [|auto].
      apply Z.eqb_neq. intros K. rewrite K in K1. apply K1. exact E.
    + intros a b Tw Ka NX. exfalso. apply NX. left. apply Z.eqb_eq in Ka. auto.
    + intros g g' K K' Cg. apply Z.eqb_eq in K, K'. subst. auto.
  - intros g [<-|[]]. apply Z.eqb_refl.
  - unfold unmarked. pose proof (countb_le (fun g => getZ P1 g =? 0) F ltac:(lia)). cbn [length]. lia.
  - exists m', P', T'. split; auto. split; [eapply finish; eauto|]. split; [intros g Mg; apply M', MK; auto|apply M', MK; auto].
Qed.
Lemma faces_ok l : forall m P T, Done m P T -> (forall f, In f l -> 0 <= f < F) ->
  exists m' P' T', foldM orientFace l (m, P) = Ok (m', P') /\ Done m' P' T' /\ (forall g, Mark P g -> Mark P' g) /\ forall f, In f l -> Mark P' f.
Proof.
  induction l as [|f l IH]; intros m P T D B; cbn [foldM].
  - exists m, P, T. split; [reflexivity|]. split; auto. split; auto. intros f [].
  - destruct (face_ok m P T f D (B f (or_introl eq_refl))) as (m1 & P1 & T1 & -> & D1 & M1 & K1). cbn [bind].
    destruct (IH m1 P1 T1 D1) as (m2 & P2 & T2 & E2 & D2 & M2 & K2); [intros; apply B; right; auto|]. exists m2, P2, T2. split; auto. split; auto. split; auto. intros g [<-|Hg]; auto.
Qed.
Lemma greedily_ok : exists m' T, gGreedilyOrientFaces m0 = Ok m' /\ GValid m' /\ Turned m0 m' T /\ forall a b, Twins m0 a b -> C (fc a) -> ev m' AOri a <> ev m' AOri b.
Proof.
  pose proof (gv_fill m0 V0 TFc) as FF. cbn [gFill gCap] in FF.
  assert (FL : gFaces m0 = zseq F). { unfold gFaces, gLive. rewrite (filter_ext_in _ (fun _ => true)); [clear; induction (zseq F); simpl; congruence|]. intros f Hf. apply zseq_In in Hf. destruct (gv_fhe m0 V0 f Hf) as [A _]. unfold inH, ev, INVALID in *. apply Bool.negb_true_iff, Z.eqb_neq. lia. }
  assert (RZ : forall f, 0 <= f < F -> getZ (repeat 0 (Z.to_nat (gFCap m0))) f = 0). { intros f Hf. unfold getZ. destruct (Z.ltb_spec f 0); [lia|]. rewrite (nth_indep _ _ 0) by (rewrite repeat_length; lia). apply nth_repeat. }
  destruct (faces_ok (zseq F) m0 (repeat 0 (Z.to_nat (gFCap m0))) (fun _ => false)) as (m' & P' & T' & E & D & _ & MA).
  - constructor; try discriminate.
    + constructor; auto; [apply turned_refl|unfold zlen; rewrite repeat_length; lia].
    + intros a b Tw Ma. exfalso. apply Ma, RZ, face_in, Tw.
  - intros f Hf. apply zseq_In. auto.
  - exists m', T'. unfold gGreedilyOrientFaces. rewrite FL. unfold orientFace in E. rewrite E. cbn [bind]. split; auto. destruct D as [[D1 D2 D3 D4] _ D5 _ _]. split; auto. split; auto.
    intros a b Tw Ca K. pose proof Tw as (Ha & Hb & _). destruct (D5 a b Tw (MA _ (proj2 (zseq_In _ _) (face_in a Ha))) eq_refl) as (_ & _ & Q). specialize (Q Ca). pose proof (CS a b Tw Ca) as N.
    assert (K' : (ev m' AOri a =? 1) = (ev m' AOri b =? 1)) by (rewrite K; reflexivity). rewrite !(ori_turn m' T') in K' by auto. unfold turn in Q. clear - Q N K'.
    destruct (ev m0 AOri a =? 1), (ev m0 AOri b =? 1), (s (fc a)), (s (fc b)), (T' (fc a)), (T' (fc b)); simpl in *; congruence.
Qed.
End G.

Lemma orient_all m : GValid m -> exists m' T, gGreedilyOrientFaces m = Ok m' /\ GValid m' /\ Turned m m' T /\
  forall C s, ClosedSet m C -> orientedBy m C s -> forall a b, Twins m a b -> C (ev m AFace a) -> ev m' AOri a <> ev m' AOri b.
Proof.
  intros V. destruct (greedily_ok m V (fun _ => False) (fun _ => false)) as (m' & T & E & V' & U & _); [intros a b _ []|intros a b _ []|].
  exists m', T. split; auto. split; auto. split; auto. intros C s CL CS a b Tw Ca. destruct (greedily_ok m V C s CL CS) as (m2 & T2 & E2 & _ & _ & K). rewrite E in E2. injection E2 as <-. apply K; auto.
Qed.
