(** Splitting one face. *)
From Coq Require Import Reals Permutation.
From Verif Require Import Base DataModel MeshModel MeshModel2 MeshSpec MeshBase MeshDel MeshOpSpec MeshOrbit MeshExec MeshThms MeshRemoveEdge MeshInsertVertex MeshDataModel MeshHistory CollapseModel Field2 Intrinsic5 IntrinsicModel GeoModel FastModel SubdivModel Subdiv1 DataProofs.
Open Scope Z_scope.

(** removing the edge of z *)
Lemma remove_side g z : Valid g -> liveH g z -> ~ ext g z -> ~ ext g (tw z) -> fa g z <> fa g (tw z) -> nx g z <> z -> nx g (tw z) <> tw z ->
  exists g' f, removeEdge g (edge z) = Ok (g', Some f) /\ (f = fa g z \/ f = fa g (tw z)) /\ Valid g' /\
    nVertices g' = nVertices g /\ nEdges g' = nEdges g - 1 /\ nFaces g' = nFaces g - 1 /\ nLoops g' = nLoops g /\ dims g' = dims g /\
    (forall x, liveH g' x <-> liveH g x /\ x <> z /\ x <> tw z) /\
    (forall k, k <> fa g z -> k <> fa g (tw z) -> liveFL g' k <-> liveFL g k) /\
    (forall x, liveH g' x -> ve g' x = ve g x /\ (fa g x <> fa g z -> fa g x <> fa g (tw z) -> fa g' x = fa g x) /\ (~ ext g x -> ~ ext g' x) /\
       (nx g x = z -> nx g' x = nx g (tw z)) /\ (nx g x = tw z -> nx g' x = nx g z) /\ (nx g x <> z -> nx g x <> tw z -> nx g' x = nx g x)).
Proof.
  intros V L I1 I2 FN N1 N2. assert (AZ : exists e a, e = edge z /\ a = eHe e /\ (z = a \/ z = tw a)) by (exists (edge z), (eHe (edge z)); split; auto; split; auto; apply edge_two; reflexivity).
  destruct AZ as (e & a & <- & HA & AZ).
  assert (Lz' : liveH g (tw z)) by (apply (cn_tw _ (va_cn _ V)); auto).
  assert (La : liveH g a) by (destruct AZ as [<-|K]; auto; rewrite K, tw_tw in Lz'; auto).
  assert (Ib : ~ ext g (tw a)) by (destruct AZ as [<-|K]; auto; rewrite <- K; auto).
  assert (Ia : ~ ext g a) by (destruct AZ as [<-|K]; auto; rewrite K, tw_tw in I2; auto).
  assert (FN' : fa g a <> fa g (tw a)) by (destruct AZ as [<-|K]; auto; rewrite K, tw_tw in FN; auto).
  assert (Na : nx g a <> a) by (destruct AZ as [<-|K]; auto; rewrite K, tw_tw in N2; auto).
  assert (Nb : nx g (tw a) <> tw a) by (destruct AZ as [<-|K]; auto; rewrite <- K; auto).
  rewrite HA in La, Ib, FN', Na, Nb. destruct (removeEdge_merge g e V La Ib FN') as (g' & R & V' & C & D & LH & LV & LF & INC & _); [intros [K _]; auto|].
  rewrite <- HA in *. set (b := tw a) in *. injection C as C1 C2 C3 C4 C5 C6.
  assert (DF : fFill g' = fFill g) by (unfold dims in D; injection D; auto).
  exists g', (fa g a). split; [exact R|]. split; [destruct AZ as [->| ->]; auto; right; unfold b; rewrite tw_tw; auto|]. split; [auto|]. do 5 (split; [auto|]).
  assert (INC' : forall x, liveH g' x -> ve g' x = ve g x /\ fa g' x = (if fa g x =? fa g b then fa g a else fa g x) /\ (nx g x = a -> nx g' x = nx g b) /\ (nx g x = b -> nx g' x = nx g a) /\ (nx g x <> a -> nx g x <> b -> nx g' x = nx g x)).
  { intros x K. destruct (INC x K) as (E1 & E2 & E3). rewrite (proj2 (Z.eqb_neq _ _) Na), (proj2 (Z.eqb_neq _ _) Nb) in E3. split; [auto|]. split; [auto|]. rewrite E3. split; [|split].
    - intros ->. rewrite Z.eqb_refl. auto.
    - intros ->. assert (b <> a) by apply tw_neq. rewrite (proj2 (Z.eqb_neq _ _)) by auto. rewrite Z.eqb_refl. auto.
    - intros K1 K2. rewrite !(proj2 (Z.eqb_neq _ _)) by auto. auto. }
  assert (TB : tw b = a) by (unfold b; apply tw_tw).
  split; [intros x; rewrite LH; destruct AZ as [->| ->]; fold b; rewrite ?TB; tauto|].
  split. { intros k K1 K2. rewrite LF. assert (k <> fa g b) by (destruct AZ as [->| ->]; fold b in K1, K2; rewrite ?TB in *; auto). tauto. }
  intros x K. destruct (INC' x K) as (E1 & E2 & E3 & E4 & E5). split; [auto|]. split; [|split].
  - intros K1 K2. rewrite E2. rewrite (proj2 (Z.eqb_neq _ _)); auto. destruct AZ as [->| ->]; fold b in K1, K2; rewrite ?TB in *; auto.
  - unfold ext in *. rewrite DF, E2. destruct (fa g x =? fa g b); auto.
  - destruct AZ as [->| ->]; fold b; rewrite ?TB; auto.
Qed.
(** a face is its orbit *)
Lemma orbit_closed g (P : Z -> Prop) a x : Valid g -> liveH g a -> liveH g x -> fa g x = fa g a -> P a -> (forall y, P y -> liveH g y -> P (nx g y)) -> P x.
Proof.
  intros V La Lx E Pa Cl. destruct (cn_forb _ (va_cn _ V) a x La Lx) as [n <-]; [auto|]. clear Lx E. enough (K : P (Nat.iter n (nx g) a) /\ liveH g (Nat.iter n (nx g) a)) by apply K.
  induction n as [|n [I1 I2]]; cbn; auto. split; [apply Cl; auto|apply (cn_nx _ (va_cn _ V)); auto].
Qed.
Lemma side_face g x f : side g x = FaceSide f <-> fa g x = f /\ ~ ext g x.
Proof. unfold side, ext. destruct (Z.leb_spec (fFill g) (fa g x)); split; [discriminate|intros []; lia|intros K; injection K as <-; split; auto; lia|intros [<- _]; auto]. Qed.
Lemma side_same g g' x : fFill g' = fFill g -> fCap g' = fCap g -> fa g' x = fa g x -> side g' x = side g x.
Proof. unfold side. intros -> -> ->. reflexivity. Qed.
Lemma side_ext g x g' y : side g x = side g' y -> ext g x <-> ext g' y.
Proof. unfold side, ext. destruct (Z.leb_spec (fFill g) (fa g x)), (Z.leb_spec (fFill g') (fa g' y)); intros K; try discriminate K; split; lia. Qed.

Lemma NoDup_map_inj {A B} (f : A -> B) l : NoDup l -> (forall a b, In a l -> In b l -> f a = f b -> a = b) -> NoDup (map f l).
Proof.
  induction 1 as [|a l Ha H IH]; intros K; cbn; constructor.
  - intros I. apply in_map_iff in I as (b & E & I). apply Ha. rewrite (K a b); auto; [left; auto|right; auto].
  - apply IH. intros x y Hx Hy. apply K; right; auto.
Qed.
Lemma NoDup_app2 {A} (l l' : list A) : NoDup l -> NoDup l' -> (forall x, In x l -> ~ In x l') -> NoDup (l ++ l').
Proof.
  induction 1 as [|a l Ha H IH]; intros H' K; cbn; auto. constructor.
  - intros I. apply in_app_or in I as [I|I]; auto. apply (K a); auto. left; auto.
  - apply IH; auto. intros x Hx. apply K. right. auto.
Qed.

Section Quarter.
Context (m g1 : mesh) (V : Valid m) (F S M : Z -> Z) (SD : Sided m (fun e => liveH m (eHe e)) g1 F S M).
Let CN := va_cn _ V.
Let V1 := sd_v _ _ _ _ _ _ SD.
Lemma dn h : liveH m h -> liveH m (eHe (edge h)).
Proof. intros L. destruct (edge_two h (edge h) eq_refl) as [<-|K]; auto. rewrite <- (tw_tw (eHe _)), <- K. apply CN; auto. Qed.
Lemma liveFS h : liveH m h -> liveH g1 (F h) /\ liveH g1 (S h).
Proof. intros L. split; apply (sd_live _ _ _ _ _ _ SD); eauto. Qed.
Lemma oldV h : liveH m h -> 0 <= ve m h < vFill m.
Proof. intros L. apply (cn_ve _ CN) in L. apply L. Qed.
Lemma FS_neq h k : liveH m h -> liveH m k -> F h <> S k.
Proof. intros Lh Lk K. destruct (sd_done _ _ _ _ _ _ SD h Lh (dn h Lh)) as (E1 & _). destruct (sd_done _ _ _ _ _ _ SD k Lk (dn k Lk)) as (_ & E2 & _ & _ & _ & E3). apply oldV in Lh. rewrite K in E1. lia. Qed.

(** g is g1 with the faces in done quartered: X h leads from the middle of the edge of h to the centre C (fa h) *)
Record Quart (done : Z -> Prop) (g : mesh) (X C : Z -> Z) : Prop := {
  q_v : Valid g; q_nd : NoDeadLoops g;
  q_fill : fFill g1 <= fFill g /\ vFill g1 <= vFill g /\ heFill g1 <= heFill g;
  q_live : forall x, liveH g x <-> liveH g1 x \/ exists h, liveH m h /\ ~ ext m h /\ done (fa m h) /\ (x = X h \/ x = tw (X h));
  q_ve : forall x, liveH g1 x -> ve g x = ve g1 x;
  q_todo : forall h, liveH m h -> ext m h \/ ~ done (fa m h) -> nx g (F h) = S h /\ nx g (S h) = F (nx m h) /\ side g (F h) = side m h /\ side g (S h) = side m h;
  q_done : forall h, liveH m h -> ~ ext m h -> done (fa m h) -> heFill g1 <= X h /\ nx g (F h) = X h /\ nx g (tw (X h)) = S h /\ nx g (S h) = F (nx m h) /\ nx g (X (nx m h)) = tw (X h) /\
     ve g (X h) = M (edge h) /\ ve g (tw (X h)) = C (fa m h) /\ ~ ext g (F h) /\ vFill g1 <= C (fa m h) < vFill g;
  q_f : forall f, 0 <= f < fFill m -> ~ done f -> liveF g f <-> liveF m f }.
Lemma quart_start : Quart (fun _ => False) g1 (fun h => h) (fun f => f).
Proof.
  destruct (sd_fill _ _ _ _ _ _ SD) as (Q1 & Q2 & Q3 & Q4 & Q5). constructor.
  - exact V1.
  - exact (sd_nd _ _ _ _ _ _ SD).
  - repeat split; lia.
  - intros x. split; [auto|intros [K|(h & _ & _ & [] & _)]; auto].
  - auto.
  - intros h L _. destruct (sd_done _ _ _ _ _ _ SD h L (dn h L)) as (_ & _ & E3 & E4 & _). destruct (sd_fa _ _ _ _ _ _ SD h L) as [E5 E6]. split; [auto|]. split; [auto|]. unfold side. rewrite E5, E6, Q1, Q2. auto.
  - intros h _ _ [].
  - intros f Hf _. pose proof (sd_fl _ _ _ _ _ _ SD f) as K. unfold liveFL, liveF, liveL in *. pose proof (st_f _ (va_st _ V)). rewrite Q1, Q2, Q3 in *. split; intros [K1 K2]; (split; [auto|]); destruct K as [K K']; [destruct K as [[_ K]|[_ K]]|destruct K' as [[_ K']|[_ K']]]; auto.
Qed.

Section Face.
Context (done : Z -> Prop) (g : mesh) (X C : Z -> Z) (Q : Quart done g X C) (f : Z) (Lf : liveF m f) (Nf : ~ done f).
Let VG := q_v _ _ _ _ Q.
Let CG := va_cn _ VG.
Definition inF h := liveH m h /\ fa m h = f.
Lemma inF_int h : inF h -> ~ ext m h.
Proof. intros [_ K]. unfold ext. destruct Lf as [A _]. lia. Qed.
Lemma inF_nx h : inF h -> inF (nx m h).
Proof. intros [A B]. split; [apply CN; auto|]. rewrite (cn_fnx _ CN); auto. Qed.
Lemma inF_prev h : inF h -> exists p, inF p /\ nx m p = h.
Proof. intros [A B]. destruct (prev_ok m V h A) as (p & P1 & P2 & P3 & _). exists p. split; auto. split; auto. congruence. Qed.
Lemma todo h : inF h -> nx g (F h) = S h /\ nx g (S h) = F (nx m h) /\ (fa g (F h) = f /\ ~ ext g (F h)) /\ fa g (S h) = f /\ ~ ext g (S h).
Proof.
  intros [A B]. destruct (q_todo _ _ _ _ Q h A) as (E1 & E2 & E3 & E4); [right; congruence|]. assert (K : side m h = FaceSide f) by (apply side_face; split; auto; apply inF_int; split; auto).
  rewrite K in E3, E4. apply side_face in E3, E4. auto.
Qed.
Lemma live_g h : liveH m h -> liveH g (F h) /\ liveH g (S h).
Proof. intros L. destruct (liveFS h L) as [A B]. split; apply (q_live _ _ _ _ Q); auto. Qed.
Lemma in_face x : liveH g x /\ fa g x = f <-> exists h, inF h /\ (x = F h \/ x = S h).
Proof.
  split.
  - intros [L E]. destruct (cn_fh _ CN f) as [A B]; [left; auto|]. set (h0 := fh m f) in *. assert (I0 : inF h0) by (split; auto).
    apply (orbit_closed g (fun x => exists h, inF h /\ (x = F h \/ x = S h)) (F h0) x VG).
    + apply live_g; auto.
    + auto.
    + destruct (todo h0 I0) as (_ & _ & (-> & _) & _). auto.
    + exists h0; auto.
    + intros y (h & I & [->| ->]) Ly; destruct (todo h I) as (E1 & E2 & _); [exists h; rewrite E1; auto|exists (nx m h); rewrite E2; split; auto; apply inF_nx; auto].
  - intros (h & I & K). destruct (todo h I) as (_ & _ & (E1 & _) & E2 & _). destruct I as [L _]. apply live_g in L. destruct K as [->| ->]; tauto.
Qed.
Lemma midV h : inF h -> vFill m <= M (edge h) < vFill g1.
Proof. intros [L _]. destruct (sd_done _ _ _ _ _ _ SD h L (dn h L)) as (_ & _ & _ & _ & _ & K). auto. Qed.
(** ** after insertVertex: h's two halves bound the triangles F h, X' h, tw (Z (prev h)) and S h, Z h, tw (X' h) *)
Section Inserted.
Context (g2 : mesh) (X' Zz : Z -> Z).
(** the halfedges Z h with D h have been removed; X' h and the others are spokes *)
Record Merged (D : Z -> Prop) (g3 : mesh) : Prop := {
  mg_v : Valid g3; mg_nd : NoDeadLoops g3; mg_fill : heFill g3 = heFill g2 /\ vFill g3 = vFill g2 /\ fFill g3 = fFill g2 /\ fCap g3 = fCap g2 /\ bFill g3 = bFill g2;
  mg_live : forall x, liveH g3 x <-> liveH g2 x /\ forall h, inF h -> D h -> x <> Zz h /\ x <> tw (Zz h);
  mg_ve : forall x, liveH g3 x -> ve g3 x = ve g2 x;
  mg_in : forall h, inF h -> nx g3 (F h) = X' h /\ nx g3 (tw (X' h)) = S h /\ ~ ext g3 (F h) /\ ~ ext g3 (S h) /\
    (D h -> nx g3 (S h) = F (nx m h) /\ nx g3 (X' (nx m h)) = tw (X' h)) /\
    (~ D h -> nx g3 (S h) = Zz h /\ nx g3 (Zz h) = tw (X' h) /\ nx g3 (X' (nx m h)) = tw (Zz h) /\ nx g3 (tw (Zz h)) = F (nx m h));
  mg_out : forall x, liveH g x -> fa g x <> f -> nx g3 x = nx g x /\ side g3 x = side g x;
  mg_lf : forall k, 0 <= k < fFill m -> ~ done k -> k <> f -> liveF g3 k <-> liveF m k }.
(** what is known of the spokes *)
Record Spokes : Prop := {
  sk_fill : heFill g <= heFill g2 /\ fFill g <= fFill g2 /\ vFill g2 = vFill g + 1;
  sk_live : forall x, liveH g2 x <-> liveH g x \/ exists h, inF h /\ (x = X' h \/ x = tw (X' h) \/ x = Zz h \/ x = tw (Zz h));
  sk_new : forall h, inF h -> ~ liveH g (X' h) /\ ~ liveH g (tw (X' h)) /\ ~ liveH g (Zz h) /\ ~ liveH g (tw (Zz h));
  sk_ve : forall h, inF h -> ve g2 (X' h) = M (edge h) /\ ve g2 (Zz h) = ve m (nx m h) /\ ve g2 (tw (X' h)) = vFill g /\ ve g2 (tw (Zz h)) = vFill g;
  sk_ge : forall h, inF h -> heFill g <= X' h;
  sk_old : forall x, liveH g x -> ve g2 x = ve g x;
  sk_inj : forall h k, inF h -> inF k -> (X' h = X' k -> h = k) /\ (Zz h = Zz k -> h = k) }.
Context (SK : Spokes).
Lemma XZ_neq h k : inF h -> inF k -> X' h <> Zz k /\ X' h <> tw (Zz k) /\ X' h <> tw (X' k) /\ Zz h <> tw (Zz k).
Proof.
  intros A B. destruct (sk_ve SK h A) as (E1 & E2 & E3 & E4). destruct (sk_ve SK k B) as (K1 & K2 & K3 & K4). pose proof (midV h A) as R1. destruct (inF_nx k B) as [R2 _]. apply oldV in R2. destruct (inF_nx h A) as [R3 _]. apply oldV in R3. destruct (q_fill _ _ _ _ Q) as (_ & R4 & _). destruct (sd_fill _ _ _ _ _ _ SD) as (_ & _ & _ & R5 & _).
  repeat split; intros K; rewrite K in *; lia.
Qed.
(** the faces not yet visited keep clear of the new halfedges *)
Lemma new_face D g3 k x : Merged D g3 -> 0 <= k < fFill m -> ~ done k -> k <> f -> liveH g3 x -> ~ liveH g x -> fa g3 x <> k.
Proof.
  intros MG Hk Nk Kf Lx NL E. pose proof (mg_v _ _ MG) as V3. assert (LK : liveFL g3 k) by (rewrite <- E; apply (cn_fa _ (va_cn _ V3)); auto).
  assert (FF : fFill m <= fFill g3). { destruct (mg_fill _ _ MG) as (_ & _ & A & _). destruct (sk_fill SK) as (_ & B & _). destruct (q_fill _ _ _ _ Q) as (B' & _). destruct (sd_fill _ _ _ _ _ _ SD) as (B'' & _). lia. }
  assert (LK' : liveF m k). { apply (mg_lf _ _ MG); auto. destruct LK as [LK|[LK _]]; auto. pose proof (st_f _ (va_st _ V3)). lia. }
  destruct (cn_fh _ CN k (or_introl LK')) as [A B]. set (h0 := fh m k) in *.
  assert (TD : forall h, liveH m h -> fa m h = k -> nx g (F h) = S h /\ nx g (S h) = F (nx m h) /\ (fa g (F h) = k /\ side g (F h) = FaceSide k) /\ fa g (S h) = k /\ side g (S h) = FaceSide k).
  { intros h L Eh. destruct (q_todo _ _ _ _ Q h L) as (E1 & E2 & E3 & E4); [right; congruence|]. assert (K : side m h = FaceSide k) by (apply side_face; split; auto; unfold ext; lia). rewrite K in E3, E4. pose proof E3 as E3'. pose proof E4 as E4'. apply side_face in E3', E4'. tauto. }
  assert (P : exists h, (liveH m h /\ fa m h = k) /\ (x = F h \/ x = S h)).
  { apply (orbit_closed g3 (fun x => exists h, (liveH m h /\ fa m h = k) /\ (x = F h \/ x = S h)) (F h0) x V3); auto.
    - destruct (TD h0 A B) as (_ & _ & (E1 & E2) & _). apply (mg_live _ _ MG). split; [apply (sk_live SK); left; apply live_g; auto|]. intros h I _. destruct (sk_new SK h I) as (_ & _ & N1 & N2). destruct (live_g h0 A) as [LL _]. split; intros K; [apply N1|apply N2]; rewrite <- K; auto.
    - destruct (TD h0 A B) as (_ & _ & (E1 & E2) & _). destruct (mg_out _ _ MG (F h0)) as (_ & K); [apply live_g; auto|congruence|]. rewrite E2 in K. apply side_face in K. destruct K as [-> _]. auto.
    - exists h0. auto.
    - intros y (h & [Lh Eh] & Hy) Ly. destruct (TD h Lh Eh) as (E1 & E2 & (E3 & _) & E4 & _). destruct (live_g h Lh) as [L1 L2]. destruct Hy as [->| ->].
      + destruct (mg_out _ _ MG (F h) L1) as [-> _]; [congruence|]. exists h. rewrite E1. auto.
      + destruct (mg_out _ _ MG (S h) L2) as [-> _]; [congruence|]. exists (nx m h). rewrite E2. split; [split; [apply CN; auto|rewrite (cn_fnx _ CN); auto]|auto]. }
  destruct P as (h & [Lh _] & Hx). destruct (live_g h Lh). apply NL. destruct Hx as [->| ->]; auto.
Qed.
(** one merge *)
Lemma merge_step D g3 h0 : Merged D g3 -> inF h0 -> ~ D h0 ->
  exists g4 k0, removeEdge g3 (edge (Zz h0)) = Ok (g4, Some k0) /\ Merged (fun h => D h \/ h = h0) g4 /\
    nVertices g4 = nVertices g3 /\ nEdges g4 = nEdges g3 - 1 /\ nFaces g4 = nFaces g3 - 1 /\ nLoops g4 = nLoops g3 /\
    (forall k, 0 <= k < fFill m -> ~ done k -> k <> f -> k0 <> k).
Proof.
  intros MG I0 ND. pose proof (mg_v _ _ MG) as V3. pose proof (va_cn _ V3) as C3. set (z := Zz h0).
  destruct (mg_in _ _ MG h0 I0) as (_ & N1 & _ & N2 & _ & N3). destruct (N3 ND) as (Y1 & Y2 & Y3 & Y4). fold z in Y1, Y2, Y3, Y4.
  assert (NZ : forall h, inF h -> D h -> h <> h0) by (intros h _ K ->; auto).
  assert (LZ : liveH g3 z). { apply (mg_live _ _ MG). split; [apply (sk_live SK); right; exists h0; auto|]. intros h I K. split; intros E; [apply (sk_inj SK) in E; auto; subst; auto|revert E; apply XZ_neq; auto]. }
  assert (LZ' : liveH g3 (tw z)) by (apply (cn_tw _ C3); auto).
  destruct (sk_new SK h0 I0) as (W1 & W2 & W3 & W4). fold z in W3, W4.
  assert (LF3 : forall h, inF h -> liveH g3 (F h) /\ liveH g3 (S h)).
  { intros h [L _]. destruct (live_g h L) as [L1 L2]. split; apply (mg_live _ _ MG); (split; [apply (sk_live SK); auto|]); intros k I K; destruct (sk_new SK k I) as (_ & _ & U1 & U2); split; intros E; try (apply U1; rewrite <- E; auto; fail); apply U2; rewrite <- E; auto. }
  assert (LX3 : forall h, inF h -> liveH g3 (X' h) /\ liveH g3 (tw (X' h))).
  { intros h I. assert (LL : liveH g3 (X' h)); [|split; auto; apply (cn_tw _ C3); auto]. apply (mg_live _ _ MG). split; [apply (sk_live SK); right; exists h; auto|]. intros k I' K. destruct (XZ_neq h k I I') as (U1 & U2 & _). auto. }
  destruct (LF3 h0 I0) as [LF0 LS0]. assert (I1 := inF_nx h0 I0). destruct (LF3 _ I1) as [LF1 LS1]. destruct (LX3 h0 I0) as [LX0 LX0']. destruct (LX3 _ I1) as [LX1 LX1'].
  assert (F1 : fa g3 z = fa g3 (S h0)) by (rewrite <- Y1; apply (cn_fnx _ C3); auto).
  assert (F2 : fa g3 (tw z) = fa g3 (F (nx m h0))) by (rewrite <- Y4; symmetry; apply (cn_fnx _ C3); auto).
  assert (IZ : ~ ext g3 z) by (unfold ext in *; rewrite F1; auto).
  assert (IZ' : ~ ext g3 (tw z)) by (unfold ext in *; rewrite F2; destruct (mg_in _ _ MG _ I1) as (_ & _ & K & _); auto).
  assert (TX : z <> tw (X' h0)) by (intros K; destruct (XZ_neq h0 h0 I0 I0) as (_ & U & _); apply U; fold z; rewrite K, tw_tw; auto).
  assert (FN : fa g3 z <> fa g3 (tw z)).
  { intros K. assert (P : tw z = z \/ tw z = tw (X' h0) \/ tw z = S h0).
    { apply (orbit_closed g3 (fun y => y = z \/ y = tw (X' h0) \/ y = S h0) z (tw z) V3); auto. intros y [->|[->| ->]] _; rewrite ?Y2, ?N1, ?Y1; auto. }
    destruct P as [P|[P|P]]; [revert P; apply tw_neq|apply tw_inj in P; destruct (XZ_neq h0 h0 I0 I0) as (U & _); apply U; auto|apply W4; rewrite P; apply live_g, I0]. }
  assert (N1z : nx g3 z <> z) by (rewrite Y2; auto). assert (N2z : nx g3 (tw z) <> tw z) by (rewrite Y4; intros K; apply W4; rewrite <- K; apply live_g, I1).
  destruct (remove_side g3 z V3 LZ IZ IZ' FN N1z N2z) as (g4 & k0 & R & K0 & V4 & C1 & C2 & C3' & C4 & DM & LH & LF & INC).
  assert (DF : heFill g4 = heFill g3 /\ vFill g4 = vFill g3 /\ fFill g4 = fFill g3 /\ fCap g4 = fCap g3 /\ bFill g4 = bFill g3) by (unfold dims in DM; injection DM; intros; auto). destruct DF as (D1 & D2 & D3 & D4 & D5).
  assert (NK : forall k, 0 <= k < fFill m -> ~ done k -> k <> f -> fa g3 z <> k /\ fa g3 (tw z) <> k) by (intros k K1 K2 K3; split; apply (new_face D g3 k _ MG); auto).
  exists g4, k0. split; [exact R|]. split; [|split; [auto|]; split; [auto|]; split; [auto|]; split; [auto|]; intros k K1 K2 K3; destruct (NK k K1 K2 K3); destruct K0 as [->| ->]; auto].
  assert (LH4 : forall x, liveH g3 x -> x <> z -> x <> tw z -> liveH g4 x) by (intros; apply LH; auto).
  assert (KEEP : forall x y, liveH g4 x -> nx g3 x = y -> y <> z -> y <> tw z -> nx g4 x = y) by (intros x y Lx <- K1 K2; apply INC; auto).
  assert (NZg : forall x, liveH g x -> x <> z /\ x <> tw z) by (intros x Lx; split; intros ->; auto).
  assert (NZX : forall h, inF h -> X' h <> z /\ X' h <> tw z /\ tw (X' h) <> z /\ tw (X' h) <> tw z).
  { intros h I. destruct (XZ_neq h h0 I I0) as (U1 & U2 & _). fold z in U1, U2. split; [auto|]. split; [auto|]. split; intros K; [apply U2; rewrite <- K, tw_tw; auto|apply tw_inj in K; auto]. }
  constructor.
  - exact V4.
  - pose proof (mg_nd _ _ MG). unfold NoDeadLoops in *. congruence.
  - destruct (mg_fill _ _ MG) as (M1 & M2 & M3 & M4 & M5). repeat split; congruence.
  - intros x. rewrite LH, (mg_live _ _ MG). split.
    + intros ((K1 & K2) & K3 & K4). split; [auto|]. intros h I [Dh| ->]; [auto|split; auto].
    + intros (K1 & K2). split; [split; [auto|intros h I Dh; auto]|]. apply K2; auto.
  - intros x K. destruct (INC x K) as (-> & _). apply (mg_ve _ _ MG). apply LH; auto.
  - intros h I. destruct (mg_in _ _ MG h I) as (E1 & E2 & E3 & E4 & E5 & E6). destruct (LF3 h I) as [Lfh Lsh]. destruct (LX3 h I) as [Lxh Lxh']. assert (LI : liveH m h) by apply I. destruct (live_g h LI) as [Gf Gs].
    destruct (NZg _ Gf) as [Zf1 Zf2]. destruct (NZg _ Gs) as [Zs1 Zs2]. destruct (NZX h I) as (Zx1 & Zx2 & Zx3 & Zx4).
    assert (I' := inF_nx h I). destruct (LF3 _ I') as [Lfn _]. destruct (LX3 _ I') as [Lxn _]. assert (LI' : liveH m (nx m h)) by apply I'. destruct (live_g _ LI') as [Gfn _]. destruct (NZg _ Gfn) as [Zn1 Zn2]. destruct (NZX _ I') as (Zy1 & Zy2 & _).
    split; [apply KEEP; auto|]. split; [apply KEEP; auto|]. split; [apply INC; auto|]. split; [apply INC; auto|]. split.
    + intros [Dh| ->].
      * destruct (E5 Dh) as [K1 K2]. split; apply KEEP; auto.
      * split; [destruct (INC (S h0)) as (_ & _ & _ & K & _); [auto|]; rewrite K by auto; exact Y4|]. destruct (INC (X' (nx m h0))) as (_ & _ & _ & _ & K & _); [auto|]. rewrite K by auto. exact Y2.
    + intros Dh. assert (Hh : h <> h0) by (intros ->; apply Dh; auto). destruct E6 as (K1 & K2 & K3 & K4); [intros K; apply Dh; auto|].
      assert (A1 : Zz h <> z) by (intros K; apply Hh; apply (sk_inj SK); auto). assert (A2 : Zz h <> tw z) by (apply XZ_neq; auto). assert (A3 : tw (Zz h) <> z) by (intros K; apply A2; rewrite <- K, tw_tw; auto). assert (A4 : tw (Zz h) <> tw z) by (intros K; apply tw_inj in K; auto).
      assert (LZh : liveH g3 (Zz h)) by (rewrite <- K1; apply (cn_nx _ C3); auto). assert (LZh' : liveH g3 (tw (Zz h))) by (apply (cn_tw _ C3); auto).
      split; [apply KEEP; auto|]. split; [apply KEEP; auto|]. split; apply KEEP; auto.
  - intros x Lx Ef. destruct (mg_out _ _ MG x Lx Ef) as [E1 E2]. destruct (NZg x Lx) as [A1 A2].
    assert (L3 : liveH g3 x). { apply (mg_live _ _ MG). split; [apply (sk_live SK); auto|]. intros h I _. destruct (sk_new SK h I) as (_ & _ & U1 & U2). split; intros ->; auto. }
    assert (L4 : liveH g4 x) by auto. assert (Ln : liveH g (nx g x)) by (apply (cn_nx _ CG); auto). destruct (NZg _ Ln) as [B1 B2]. split; [apply KEEP; auto|].
    rewrite <- E2. apply side_same; auto. apply INC; auto; intros K.
    + assert (P : ~ (liveH g x /\ fa g x <> f)); [|tauto]. intros [_ _]. 
      assert (P : (fun y => liveH g y /\ fa g y <> f) z). { apply (orbit_closed g3 (fun y => liveH g y /\ fa g y <> f) x z V3); auto. intros y [Ly Fy] _. destruct (mg_out _ _ MG y Ly Fy) as [-> _]. split; [apply (cn_nx _ CG); auto|rewrite (cn_fnx _ CG); auto]. }
      apply W3, P.
    + assert (P : (fun y => liveH g y /\ fa g y <> f) (tw z)). { apply (orbit_closed g3 (fun y => liveH g y /\ fa g y <> f) x (tw z) V3); auto. intros y [Ly Fy] _. destruct (mg_out _ _ MG y Ly Fy) as [-> _]. split; [apply (cn_nx _ CG); auto|rewrite (cn_fnx _ CG); auto]. }
      apply W4, P.
  - intros k K1 K2 K3. rewrite <- (mg_lf _ _ MG k K1 K2 K3). destruct (NK k K1 K2 K3) as [U1 U2]. pose proof (LF k) as K. assert (U : liveFL g4 k <-> liveFL g3 k) by (apply K; auto). 
    assert (FF : fFill m <= fFill g3). { destruct (mg_fill _ _ MG) as (_ & _ & A & _). destruct (sk_fill SK) as (_ & B & _). destruct (q_fill _ _ _ _ Q) as (B' & _). destruct (sd_fill _ _ _ _ _ _ SD) as (B'' & _). lia. }
    pose proof (st_f _ (va_st _ V3)) as ST3. clear - U K1 FF D3 D4 D5 ST3. unfold liveFL, liveF, liveL in *. rewrite D3, D4, D5 in *. split; intros [A B]; (split; [auto|]).
    + destruct (proj1 U (or_introl (conj A B))) as [[_ K]|[_ K]]; auto.
    + destruct (proj2 U (or_introl (conj A B))) as [[_ K]|[_ K]]; auto.
Qed.
End Inserted.
Lemma insert_face : exists g2 X' Zz, insertVertex g f = Ok (g2, vFill g) /\ liveV g2 (vFill g) /\ Spokes g2 X' Zz /\ Merged g2 X' Zz (fun _ => False) g2 /\
  (forall x, liveH g2 x /\ ve g2 (tw x) = vFill g <-> exists h, inF h /\ (x = X' h \/ x = Zz h)) /\
  exists d, (exists hs, d = Z.of_nat (length hs) /\ NoDup hs /\ forall x, In x hs <-> exists h, inF h /\ (x = F h \/ x = S h)) /\
    nVertices g2 = nVertices g + 1 /\ nEdges g2 = nEdges g + d /\ nFaces g2 = nFaces g + (d - 1) /\ nLoops g2 = nLoops g.
Proof.
  assert (LG : liveF g f) by (apply (q_f _ _ _ _ Q); auto; apply Lf).
  destruct (faceHalfedges_ok g VG f (or_introl LG)) as (hs & _ & NE & CH & NDU & MEM).
  assert (HS : forall x, In x hs <-> exists h, inF h /\ (x = F h \/ x = S h)) by (intros x; rewrite MEM; apply in_face).
  destruct (insert_vertex_spec g f hs VG (q_nd _ _ _ _ Q) LG NE CH NDU) as (g2 & E & V2 & ND2 & C1 & C2 & _ & _ & C5 & C6 & _ & LV & LH & LF & LB & VO & OUT & TRI & SF & (l & _ & _ & INL & MPL) & _ & FH & FV & FF & FB).
  set (d := Z.of_nat (length hs)) in *. pose proof (va_cn _ V2) as CN2.
  set (X' := fun h => nx g2 (F h)). set (Zz := fun h => nx g2 (S h)).
  assert (IF : forall h, inF h -> In (F h) hs /\ In (S h) hs) by (intros h I; split; apply HS; eauto).
  assert (OLDg2 : forall x, liveH g x -> liveH g2 x) by (intros; apply LH; auto).
  assert (TX : forall h, inF h -> ve g2 (X' h) = M (edge h) /\ nx g2 (tw (X' h)) = S h /\ ~ liveH g (X' h) /\ ~ ext g2 (F h) /\ liveH g2 (X' h)).
  { intros h I. destruct (IF h I) as [I1 _]. destruct (TRI _ I1) as (x & y & T1 & T2 & T3 & T4 & T5 & T6 & T7 & T8 & T9 & T10). destruct (todo h I) as (E1 & E2 & _). destruct I as [L Ef]. destruct (live_g h L) as [L1 L2]. unfold X'. rewrite T1. 
    split; [|split; [congruence|split; [auto|split; [auto|rewrite <- T1; apply (cn_nx _ CN2); auto]]]]. rewrite T7. rewrite <- (cn_vnx _ CG) by auto. rewrite E1. rewrite (q_ve _ _ _ _ Q) by (apply liveFS; auto). destruct (sd_done _ _ _ _ _ _ SD h L (dn h L)) as (_ & K & _). auto. }
  assert (TZ : forall h, inF h -> ve g2 (Zz h) = ve m (nx m h) /\ nx g2 (tw (Zz h)) = F (nx m h) /\ ~ liveH g (Zz h) /\ ~ ext g2 (S h) /\ liveH g2 (Zz h)).
  { intros h I. destruct (IF h I) as [_ I1]. destruct (TRI _ I1) as (x & y & T1 & T2 & T3 & T4 & T5 & T6 & T7 & T8 & T9 & T10). destruct (todo h I) as (E1 & E2 & _). pose proof (inF_nx h I) as [L' _]. destruct I as [L Ef]. destruct (live_g h L) as [L1 L2]. unfold Zz. rewrite T1. 
    split; [|split; [congruence|split; [auto|split; [auto|rewrite <- T1; apply (cn_nx _ CN2); auto]]]]. rewrite T7. rewrite <- (cn_vnx _ CG) by auto. rewrite E2. rewrite (q_ve _ _ _ _ Q) by (apply liveFS; auto). destruct (sd_done _ _ _ _ _ _ SD _ L' (dn _ L')) as (K & _). auto. }
  assert (TWL : forall x, liveH g x -> liveH g (tw x)) by apply (cn_tw _ CG). assert (TWL2 : forall x, liveH g2 x -> liveH g2 (tw x)) by apply (cn_tw _ CN2).
  assert (NTW : forall x, ~ liveH g x -> ~ liveH g (tw x)) by (intros x K K'; apply TWL in K'; rewrite tw_tw in K'; auto).
  assert (TX2 : forall h, inF h -> nx g2 (Zz h) = tw (X' h) /\ ve g2 (tw (X' h)) = vFill g).
  { intros h I. destruct (IF h I) as [_ I1]. destruct (TRI _ I1) as (x & y & T1 & T2 & T3 & T4 & T5 & T6 & T7 & T8 & T9 & T10). destruct (TX h I) as (_ & K2 & _ & _ & K5). destruct (TZ h I) as (_ & _ & _ & _ & KZ). unfold Zz in *. rewrite T1 in *.
    assert (Y : y = tw (X' h)) by (apply (cn_inj _ CN2); [rewrite <- T2; apply (cn_nx _ CN2); auto|apply TWL2; auto|congruence]). rewrite <- Y. auto. }
  assert (TZ2 : forall h, inF h -> nx g2 (X' (nx m h)) = tw (Zz h) /\ ve g2 (tw (Zz h)) = vFill g).
  { intros h I. pose proof (inF_nx h I) as I'. destruct (IF _ I') as [I1 _]. destruct (TRI _ I1) as (x & y & T1 & T2 & T3 & T4 & T5 & T6 & T7 & T8 & T9 & T10). destruct (TX _ I') as (_ & _ & _ & _ & KX). destruct (TZ h I) as (_ & K2 & _ & _ & KZ). unfold X' in *. rewrite T1 in *.
    assert (Y : y = tw (Zz h)) by (apply (cn_inj _ CN2); [rewrite <- T2; apply (cn_nx _ CN2); auto|apply TWL2; auto|congruence]). rewrite <- Y. auto. }
  assert (INC : forall x, liveH g2 x /\ ve g2 (tw x) = vFill g <-> exists h, inF h /\ (x = X' h \/ x = Zz h)).
  { intros x. split.
    - intros [Lx Ex]. assert (K : In (tw x) l) by (apply INL; auto). apply (in_map (nx g2)) in K. rewrite MPL in K. apply HS in K as (h & I & [K|K]).
      + destruct (inF_prev h I) as (p & Ip & <-). exists p. split; auto. right. destruct (TZ p Ip) as (_ & K2 & _ & _ & K5). apply tw_inj. apply (cn_inj _ CN2); auto. congruence.
      + exists h. split; auto. left. destruct (TX h I) as (_ & K2 & _ & _ & K5). apply tw_inj. apply (cn_inj _ CN2); auto. congruence.
    - intros (h & I & [->| ->]); [split; [apply TX; auto|apply TX2; auto]|split; [apply TZ; auto|apply TZ2; auto]]. }
  assert (NEWX : forall x, liveH g2 x -> ~ liveH g x -> exists h, inF h /\ (x = X' h \/ x = tw (X' h) \/ x = Zz h \/ x = tw (Zz h))).
  { intros x Lx NLx. assert (Rx : heFill g <= x < heFill g + 2 * d) by (apply LH in Lx; tauto). set (sp := map (nx g2) hs).
    assert (SPI : forall y, In y sp -> exists h, inF h /\ (y = X' h \/ y = Zz h)). { intros y K. apply in_map_iff in K as (u & <- & K). apply HS in K as (h & I & [->| ->]); exists h; auto. }
    assert (SPV : forall y, In y sp -> liveH g2 y /\ ~ liveH g y /\ ve g2 y < vFill g /\ ve g2 (tw y) = vFill g).
    { intros y K. destruct (SPI y K) as (h & I & [->| ->]).
      - destruct (TX h I) as (K1 & _ & K3 & _ & K5). destruct (TX2 h I). pose proof (midV h I). destruct (q_fill _ _ _ _ Q) as (_ & R4 & _). split; [auto|]. split; [auto|]. split; [lia|auto].
      - destruct (TZ h I) as (K1 & _ & K3 & _ & K5). destruct (TZ2 h I). destruct (inF_nx h I) as [R2 _]. apply oldV in R2. destruct (q_fill _ _ _ _ Q) as (_ & R4 & _). destruct (sd_fill _ _ _ _ _ _ SD) as (_ & _ & _ & R5 & _). split; [auto|]. split; [auto|]. split; [lia|auto]. }
    assert (NDsp : NoDup sp) by (apply NoDup_map_inj; auto; intros a b Ha Hb K; apply (cn_inj _ CN2); auto; apply OLDg2; apply MEM; auto).
    assert (NDall : NoDup (sp ++ map tw sp)). { apply NoDup_app2; [auto|apply NoDup_map_inj; auto; intros a b _ _ K; apply tw_inj; auto|]. intros y K1 K2. apply in_map_iff in K2 as (u & <- & K2). destruct (SPV _ K1) as (_ & _ & U1 & _). destruct (SPV _ K2) as (_ & _ & _ & U2). lia. }
    assert (INCL : incl (map (fun i => heFill g + Z.of_nat i) (seq 0 (2 * length hs))) (sp ++ map tw sp)).
    { apply (NoDup_length_incl NDall).
      - rewrite app_length, !map_length, seq_length. unfold sp. rewrite map_length. lia.
      - intros y K. assert (K' : liveH g2 y /\ ~ liveH g y). { apply in_app_or in K as [K|K]; [destruct (SPV y K); tauto|]. apply in_map_iff in K as (u & <- & K). destruct (SPV u K) as (U1 & U2 & _). auto. }
        destruct K' as [K1 K2]. apply LH in K1. destruct K1 as [K1|K1]; [contradiction|]. apply in_map_iff. exists (Z.to_nat (y - heFill g)). split; [lia|]. apply in_seq. unfold d in *. lia. }
    assert (K : In x (sp ++ map tw sp)) by (apply INCL, in_map_iff; exists (Z.to_nat (x - heFill g)); split; [lia|]; apply in_seq; unfold d in *; lia).
    apply in_app_or in K as [K|K]; [destruct (SPI x K) as (h & I & [->| ->]); exists h; auto|]. apply in_map_iff in K as (u & <- & K). destruct (SPI u K) as (h & I & [->| ->]); exists h; auto. }
  assert (Hd : 1 <= d) by (unfold d; destruct hs; [congruence|cbn [length]; lia]).
  exists g2, X', Zz. split; [exact E|]. split; [apply LV; auto|]. split; [|split; [|split; [exact INC|]]].
  - constructor.
    + repeat split; lia.
    + intros x. split.
      * intros Lx. destruct (Z_lt_dec x (heFill g)) as [K|K]; [left; apply LH in Lx; destruct Lx as [Lx|Lx]; [auto|lia]|right; apply NEWX; auto; intros [K' _]; lia].
      * intros [K|(h & I & [->|[->|[->| ->]]])]; auto; try apply TWL2; try apply TX; try apply TZ; auto.
    + intros h I. destruct (TX h I) as (_ & _ & K1 & _). destruct (TZ h I) as (_ & _ & K2 & _). auto.
    + intros h I. split; [apply TX; auto|]. split; [apply TZ; auto|]. split; [apply TX2; auto|apply TZ2; auto].
    + intros h I. destruct (TX h I) as (_ & _ & K1 & _ & K2). apply LH in K2. destruct K2 as [K2|K2]; [contradiction|lia].
    + exact VO.
    + intros h k Ih Ik. assert (Lh : liveH m h) by apply Ih. assert (Lk : liveH m k) by apply Ik. destruct (live_g h Lh) as [A1 A2]. destruct (live_g k Lk) as [B1 B2]. destruct (sd_inj _ _ _ _ _ _ SD h k Lh Lk) as [J1 J2]. split; intros K; [apply J1|apply J2]; apply (cn_inj _ CN2); auto.
  - constructor; auto.
    + intros x. split; [intros K; split; [auto|intros h _ []]|tauto].
    + intros h I. split; [reflexivity|]. split; [apply TX; auto|]. split; [apply TX; auto|]. split; [apply TZ; auto|]. split; [intros []|]. intros _. split; [reflexivity|]. split; [apply TX2; auto|]. split; [apply TZ2; auto|apply TZ; auto].
    + intros x Lx Fx. apply OUT; auto. rewrite MEM. tauto.
    + intros k K1 K2 K3. rewrite LF. destruct (q_fill _ _ _ _ Q) as (B' & _). destruct (sd_fill _ _ _ _ _ _ SD) as (B'' & _). rewrite (q_f _ _ _ _ Q) by auto. split; [intros [K|K]; [auto|lia]|auto].
  - exists d. split; [exists hs; auto|auto].
Qed.
(** ** merging at every original corner *)
Section Merging.
Context (g2 : mesh) (X' Zz : Z -> Z) (SK : Spokes g2 X' Zz) (rv : Z -> bool).
Context (RV : forall v, v < vFill m -> rv v = true) (RN : forall v, vFill m <= v < vFill g1 -> rv v = false).
Context (inc : list Z) (IN : forall x, In x inc <-> exists h, inF h /\ (x = X' h \/ x = Zz h)) (ND : NoDup inc).
Lemma merged_iff D D' g3 : (forall h, inF h -> D h <-> D' h) -> Merged g2 X' Zz D g3 -> Merged g2 X' Zz D' g3.
Proof.
  intros K [A1 A2 A3 A4 A5 A6 A7 A8]. constructor; auto.
  - intros x. rewrite A4. split; intros [B1 B2]; (split; [auto|]); intros h I Dh; apply B2; auto; apply K; auto.
  - intros h I. destruct (A6 h I) as (B1 & B2 & B3 & B4 & B5 & B6). do 4 (split; [auto|]). split; intros Dh; [apply B5, K; auto|apply B6; intros Dh'; apply Dh, K; auto].
Qed.
Definition corners (l : list Z) : Z := Z.of_nat (length (filter (fun x => rv (ve g2 x)) l)).
Lemma rv_X h : inF h -> rv (ve g2 (X' h)) = false.
Proof. intros I. destruct (sk_ve _ _ _ SK h I) as (-> & _). apply RN. apply midV; auto. Qed.
Lemma rv_Z h : inF h -> rv (ve g2 (Zz h)) = true.
Proof. intros I. destruct (sk_ve _ _ _ SK h I) as (_ & -> & _). apply RV. destruct (inF_nx h I) as [L _]. apply oldV in L. lia. Qed.
Lemma merge_all : forall l2 l1 r, inc = l1 ++ l2 -> Merged g2 X' Zz (fun h => In (Zz h) l1) (rM r) -> rV r = rv ->
  exists r', foldM mergeAt l2 r = Ok r' /\ Merged g2 X' Zz (fun h => True) (rM r') /\ rV r' = rv /\ rE r' = rE r /\ rP r' = rP r /\
    (forall k, 0 <= k < fFill m -> ~ done k -> k <> f -> rF r' k = rF r k) /\
    nVertices (rM r') = nVertices (rM r) /\ nEdges (rM r') = nEdges (rM r) - corners l2 /\ nFaces (rM r') = nFaces (rM r) - corners l2 /\ nLoops (rM r') = nLoops (rM r).
Proof.
  induction l2 as [|x l2 IH]; intros l1 r E MG ER.
  - exists r. split; [reflexivity|]. rewrite app_nil_r in E. split.
    + eapply merged_iff; [|exact MG]. intros h I. split; auto. intros _. rewrite <- E. apply IN. eauto.
    + repeat split; auto; unfold corners; cbn; lia.
  - assert (Hx : In x inc) by (rewrite E; apply in_or_app; right; left; auto). assert (Nx : ~ In x l1) by (rewrite E in ND; apply NoDup_remove_2 in ND; intros K; apply ND, in_or_app; auto).
    pose proof (mg_v _ _ _ _ _ MG) as V3. assert (E' : inc = (l1 ++ [x]) ++ l2) by (rewrite <- app_assoc; exact E).
    apply IN in Hx as (h & I & Hx).
    assert (Lx : liveH (rM r) x).
    { apply (mg_live _ _ _ _ _ MG). split; [apply (sk_live _ _ _ SK); right; exists h; tauto|]. intros k Ik Dk. destruct (XZ_neq _ _ _ SK h k I Ik) as (U1 & U2 & U3 & U4). destruct Hx as [->| ->]; [auto|]. split; auto. intros K. apply Nx. rewrite K. auto. }
    cbn [foldM]. unfold mergeAt at 1. rewrite (vOf _ _ V3) by auto. cbn [bind]. rewrite (mg_ve _ _ _ _ _ MG) by auto. rewrite ER. destruct Hx as [->| ->].
    + rewrite rv_X by auto. cbn [bind]. destruct (IH (l1 ++ [X' h]) r E') as (r' & R & A1 & A2 & A3 & A4 & A5 & A6 & A7 & A8 & A9); [|auto|].
      { eapply merged_iff; [|exact MG]. intros k Ik. rewrite in_app_iff. split; [auto|]. intros [K|[K|[]]]; auto. exfalso. destruct (XZ_neq _ _ _ SK h k I Ik) as (U1 & _). auto. }
      exists r'. split; [exact R|]. assert (CR : corners (X' h :: l2) = corners l2) by (unfold corners; cbn [filter]; rewrite rv_X by auto; auto). rewrite CR. auto 15.
    + rewrite rv_Z by auto. destruct (merge_step _ _ _ SK _ _ h MG I Nx) as (g4 & k0 & R4 & MG4 & C1 & C2 & C3 & C4 & NK). rewrite R4. cbn [bind].
      set (r1 := mkRefine g4 rv (rE r) (setf (rF r) k0 false) (rP r)).
      destruct (IH (l1 ++ [Zz h]) r1 E') as (r' & R & A1 & A2 & A3 & A4 & A5 & A6 & A7 & A8 & A9); [|auto|].
      { cbn [rM r1]. eapply merged_iff; [|exact MG4]. intros k Ik. cbn beta. rewrite in_app_iff. split; [intros [K| ->]; auto; right; left; auto|]. intros [K|[K|[]]]; auto. right. symmetry. apply (sk_inj _ _ _ SK) in K; auto. }
      exists r'. split; [exact R|]. cbn [rM rE rF rP r1] in *.
      assert (CR : corners (Zz h :: l2) = corners l2 + 1) by (unfold corners; cbn [filter]; rewrite rv_Z by auto; cbn [length]; lia). rewrite CR.
      split; [auto|]. split; [auto|]. split; [auto|]. split; [auto|]. split; [|repeat split; lia].
      intros k K1 K2 K3. rewrite A5 by auto. unfold setf. rewrite (proj2 (Z.eqb_neq _ _)); auto. intros K. apply (NK k); auto.
Qed.
End Merging.
Lemma done_out h : liveH m h -> ~ ext m h -> done (fa m h) -> forall x, x = F h \/ x = S h \/ x = X h \/ x = tw (X h) -> liveH g x /\ fa g x <> f.
Proof.
  intros L NE Dn x Hx. destruct (q_done _ _ _ _ Q h L NE Dn) as (K0 & _). assert (LX : liveH g (X h)) by (apply (q_live _ _ _ _ Q); right; exists h; auto).
  assert (Lx : liveH g x) by (destruct (live_g h L); destruct Hx as [->|[->|[->| ->]]]; auto; apply (cn_tw _ CG); auto). split; auto. intros E.
  destruct (proj1 (in_face x) (conj Lx E)) as (k & Ik & Hk). destruct Ik as [Lk Ek]. destruct (liveFS k Lk) as [G1 G2]. destruct (sd_inj _ _ _ _ _ _ SD h k L Lk) as [J1 J2].
  assert (NG : ~ liveH g1 (X h)) by (intros [K _]; lia). assert (NG' : ~ liveH g1 (tw (X h))) by (intros K; apply (cn_tw _ (va_cn _ V1)) in K; rewrite tw_tw in K; auto).
  pose proof (FS_neq h k L Lk). pose proof (FS_neq k h Lk L).
  assert (P : h = k) by (destruct Hx as [->|[->|[->| ->]]]; destruct Hk as [Hk|Hk]; try (apply J1; auto; fail); try (apply J2; auto; fail); exfalso; congruence).
  subst k. rewrite Ek in Dn. auto.
Qed.
Lemma todo_out h : liveH m h -> fa m h <> f -> forall x, x = F h \/ x = S h -> liveH g x /\ fa g x <> f.
Proof.
  intros L NE x Hx. assert (Lx : liveH g x) by (destruct (live_g h L); destruct Hx as [->| ->]; auto). split; auto. intros E.
  destruct (proj1 (in_face x) (conj Lx E)) as (k & Ik & Hk). destruct Ik as [Lk Ek]. destruct (sd_inj _ _ _ _ _ _ SD h k L Lk) as [J1 J2].
  pose proof (FS_neq h k L Lk). pose proof (FS_neq k h Lk L).
  assert (P : h = k) by (destruct Hx as [->| ->]; destruct Hk as [Hk|Hk]; try (apply J1; auto; fail); try (apply J2; auto; fail); exfalso; congruence). congruence.
Qed.
Lemma quart_next g2 X' Zz g4 : Spokes g2 X' Zz -> Merged g2 X' Zz (fun _ => True) g4 ->
  Quart (fun k => done k \/ k = f) g4 (fun h => if fa m h =? f then X' h else X h) (fun k => if k =? f then vFill g else C k).
Proof.
  intros SK MG. destruct (mg_fill _ _ _ _ _ MG) as (M1 & M2 & M3 & M4 & M5). destruct (sk_fill _ _ _ SK) as (S1 & S2 & S3). destruct (q_fill _ _ _ _ Q) as (Q1 & Q2 & Q3).
  set (X2 := fun h => if fa m h =? f then X' h else X h).
  assert (XN : forall h, fa m h = f -> X2 h = X' h) by (intros h K; unfold X2; rewrite K, Z.eqb_refl; auto). assert (XO : forall h, fa m h <> f -> X2 h = X h) by (intros h K; unfold X2; rewrite (proj2 (Z.eqb_neq _ _) K); auto).
  assert (L4 : forall x, liveH g x -> liveH g4 x). { intros x Lx. apply (mg_live _ _ _ _ _ MG). split; [apply (sk_live _ _ _ SK); auto|]. intros h I _. destruct (sk_new _ _ _ SK h I) as (_ & _ & U1 & U2). split; intros ->; auto. }
  assert (LX : forall h, inF h -> liveH g4 (X' h) /\ liveH g4 (tw (X' h))).
  { intros h I. assert (K : liveH g4 (X' h)); [|split; auto; apply (cn_tw _ (va_cn _ (mg_v _ _ _ _ _ MG))); auto]. apply (mg_live _ _ _ _ _ MG). split; [apply (sk_live _ _ _ SK); right; exists h; auto|]. intros k Ik _. destruct (XZ_neq _ _ _ SK h k I Ik) as (U1 & U2 & _). auto. }
  assert (VE : forall x, liveH g x -> ve g4 x = ve g x) by (intros x Lx; rewrite (mg_ve _ _ _ _ _ MG) by auto; apply (sk_old _ _ _ SK); auto).
  constructor.
  - apply (mg_v _ _ _ _ _ MG).
  - apply (mg_nd _ _ _ _ _ MG).
  - repeat split; lia.
  - intros x. split.
    + intros K. apply (mg_live _ _ _ _ _ MG) in K as [K1 K2]. apply (sk_live _ _ _ SK) in K1. destruct K1 as [K1|(h & I & K1)].
      * apply (q_live _ _ _ _ Q) in K1. destruct K1 as [K1|(h & L & NE & Dn & K1)]; [auto|]. right. exists h. rewrite XO by congruence. auto.
      * right. exists h. rewrite XN by apply I. split; [apply I|]. split; [apply inF_int; auto|]. split; [right; apply I|]. destruct (K2 h I) as [U1 U2]; auto. destruct K1 as [->|[->|[->| ->]]]; auto; exfalso; auto.
    + intros [K|(h & L & NE & Dn & Hx)]; [apply L4, (q_live _ _ _ _ Q); auto|]. destruct (Z.eq_dec (fa m h) f) as [Ef|Ef].
      * rewrite XN in Hx by auto. destruct (LX h (conj L Ef)). destruct Hx as [->| ->]; auto.
      * rewrite XO in Hx by auto. apply L4, (q_live _ _ _ _ Q). right. exists h. destruct Dn as [Dn|Dn]; [auto|congruence].
  - intros x K. rewrite VE by (apply (q_live _ _ _ _ Q); auto). apply (q_ve _ _ _ _ Q); auto.
  - intros h L Hn. assert (Ef : fa m h <> f) by (intros K; destruct Hn as [Hn|Hn]; [apply (inF_int h); [split; auto|auto]|auto]).
    destruct (q_todo _ _ _ _ Q h L) as (E1 & E2 & E3 & E4); [tauto|]. destruct (todo_out h L Ef (F h)) as [A1 A2]; auto. destruct (todo_out h L Ef (S h)) as [B1 B2]; auto.
    destruct (mg_out _ _ _ _ _ MG _ A1 A2) as [-> ->]. destruct (mg_out _ _ _ _ _ MG _ B1 B2) as [-> ->]. auto.
  - intros h L NE Dn. destruct (Z.eq_dec (fa m h) f) as [Ef|Ef].
    + assert (I : inF h) by (split; auto). pose proof (inF_nx h I) as I'. rewrite (XN h Ef), (XN (nx m h)) by apply I'. rewrite Ef, Z.eqb_refl. destruct (mg_in _ _ _ _ _ MG h I) as (E1 & E2 & E3 & E4 & E5 & _). destruct (E5 Logic.I) as [E6 E7]. destruct (sk_ve _ _ _ SK h I) as (W1 & _ & W3 & _). destruct (LX h I) as [G1 G2].
      split; [pose proof (sk_ge _ _ _ SK h I); lia|].
      rewrite !(mg_ve _ _ _ _ _ MG) by auto. repeat split; auto; try lia.
    + assert (Dn' : done (fa m h)) by (destruct Dn; [auto|congruence]). destruct (q_done _ _ _ _ Q h L NE Dn') as (E0 & E1 & E2 & E3 & E4 & E5 & E6 & E7 & E8).
      assert (Ln : liveH m (nx m h)) by (apply (cn_nx _ CN); auto). assert (Fn : fa m (nx m h) = fa m h) by (apply (cn_fnx _ CN); auto). rewrite (XO h Ef), (XO (nx m h)) by congruence. rewrite (proj2 (Z.eqb_neq _ _) Ef).
      destruct (done_out h L NE Dn' (F h)) as [A1 A2]; auto. destruct (done_out h L NE Dn' (S h)) as [B1 B2]; auto. destruct (done_out h L NE Dn' (tw (X h))) as [B3 B4]; auto. destruct (done_out h L NE Dn' (X h)) as [B5 B6]; auto.
      destruct (done_out (nx m h) Ln) with (x := X (nx m h)) as [B7 B8]; [unfold ext; rewrite Fn; auto|rewrite Fn; auto|auto|].
      destruct (mg_out _ _ _ _ _ MG _ A1 A2) as [U1 U2]. destruct (mg_out _ _ _ _ _ MG _ B1 B2) as [-> _]. destruct (mg_out _ _ _ _ _ MG _ B3 B4) as [-> _]. destruct (mg_out _ _ _ _ _ MG _ B7 B8) as [-> _]. rewrite U1, !VE by auto.
      repeat split; auto; try lia. intros K. apply E7. apply (side_ext _ _ _ _ U2). auto.
  - intros k K1 K2. apply (mg_lf _ _ _ _ _ MG); auto.
Qed.
Lemma NoDup_same {A} (l l' : list A) : NoDup l -> NoDup l' -> (forall x, In x l <-> In x l') -> length l = length l'.
Proof. intros. apply Permutation_length, NoDup_Permutation; auto. Qed.
Lemma split_face (facePt : Z -> V3) r hm : rM r = g -> rF r f = true -> NoDup hm -> (forall h, In h hm <-> inF h) ->
  (forall v, v < vFill m -> rV r v = true) -> (forall v, vFill m <= v < vFill g -> rV r v = false) ->
  exists r' X2 C2, splitFace facePt r f = Ok r' /\ Quart (fun k => done k \/ k = f) (rM r') X2 C2 /\ C2 f = vFill g /\ (forall k, k <> f -> C2 k = C k) /\ vFill (rM r') = vFill g + 1 /\
    rV r' = setf (rV r) (vFill g) false /\ rP r' = setf (rP r) (vFill g) (facePt f) /\ (forall k, 0 <= k < fFill m -> ~ done k -> k <> f -> rF r' k = rF r k) /\
    nVertices (rM r') = nVertices g + 1 /\ nEdges (rM r') = nEdges g + Z.of_nat (length hm) /\ nFaces (rM r') = nFaces g + Z.of_nat (length hm) - 1 /\ nLoops (rM r') = nLoops g.
Proof.
  intros EM EF NDm IM RV RN. destruct insert_face as (g2 & X' & Zz & E & LC & SK & MG & INC & d & (hs & Ed & NDh & IH) & C1 & C2 & C3 & C4).
  pose proof (mg_v _ _ _ _ _ MG) as V2. unfold splitFace. rewrite EF. cbn [negb]. rewrite EM, E. cbn [bind].
  destruct (vertHalfedges_ok g2 V2 (vFill g) LC) as (vs & RVs & _ & _ & _ & IV). rewrite RVs. cbn [bind].
  rewrite (interior_filter g2 V2) by (intros h K; apply IV; auto). cbn [bind]. set (is := filter _ vs).
  assert (IS : forall h, In h is -> liveH g2 h /\ ve g2 h = vFill g) by (intros h K; apply filter_In in K as [K _]; apply IV; auto).
  assert (NEWC : forall h, liveH g2 h -> ve g2 h = vFill g -> ~ liveH g h). { intros h K1 K2 K3. rewrite (sk_old _ _ _ SK) in K2 by auto. apply (cn_ve _ CG) in K3. destruct K3 as [K3 _]. lia. }
  assert (FO : forall l fo, (forall h, In h l -> liveH g2 h /\ ve g2 h = vFill g) -> exists fo', foldM (fun fo h => let* g := faceOf g2 h in Ok (setf fo g false)) l fo = Ok fo' /\ forall k, 0 <= k < fFill m -> ~ done k -> k <> f -> fo' k = fo k).
  { induction l as [|h l IHl]; intros fo K; [exists fo; auto|]. destruct (K h) as [K1 K2]; [left; auto|]. cbn [foldM]. rewrite (fOf _ _ V2) by auto. cbn [bind]. destruct (IHl (setf fo (fa g2 h) false)) as (fo' & R & A); [intros; apply K; right; auto|]. exists fo'. split; auto.
    intros k B1 B2 B3. rewrite A by auto. unfold setf. rewrite (proj2 (Z.eqb_neq _ _)); auto. intros K'. revert K'. apply not_eq_sym. apply (new_face _ _ _ SK _ _ k h MG); auto. }
  destruct (FO is (rF r) IS) as (fo & RF & HF). rewrite RF. cbn [bind].
  destruct (incoming_list g2 (vFill g) V2 LC) as (inc & RI & NDi & II). rewrite RI. cbn [bind].
  assert (IN : forall x, In x inc <-> exists h, inF h /\ (x = X' h \/ x = Zz h)) by (intros x; rewrite II; apply INC).
  set (rv := setf (rV r) (vFill g) false). destruct (sd_fill _ _ _ _ _ _ SD) as (B0 & _ & _ & R5 & _). destruct (q_fill _ _ _ _ Q) as (_ & R4 & _).
  assert (RV' : forall v, v < vFill m -> rv v = true) by (intros v K; unfold rv, setf; rewrite (proj2 (Z.eqb_neq _ _)) by lia; auto).
  assert (RN' : forall v, vFill m <= v < vFill g1 -> rv v = false) by (intros v K; unfold rv, setf; destruct (v =? vFill g); auto; apply RN; lia).
  set (r1 := mkRefine g2 rv (rE r) fo (setf (rP r) (vFill g) (facePt f))).
  destruct (merge_all g2 X' Zz SK rv RV' RN' inc IN NDi inc [] r1 eq_refl) as (r' & R & A1 & A2 & A3 & A4 & A5 & A6 & A7 & A8 & A9); [exact MG|reflexivity|].
  assert (CR : corners g2 rv inc = Z.of_nat (length hm)).
  { unfold corners. f_equal. rewrite <- (map_length Zz hm). apply NoDup_same; [apply NoDup_filter; auto|apply NoDup_map_inj; auto; intros a b Ha Hb; apply (sk_inj _ _ _ SK); apply IM; auto|].
    intros x. rewrite filter_In, IN, in_map_iff. split.
    - intros ((h & I & [->| ->]) & K); [rewrite (rv_X g2 X' Zz SK rv RN') in K by auto; discriminate K|exists h; split; auto; apply IM; auto].
    - intros (h & <- & K). apply IM in K. split; [exists h; auto|]. eapply rv_Z; eauto. }
  assert (CD : d = 2 * Z.of_nat (length hm)).
  { rewrite Ed. assert (K : length hs = length (map F hm ++ map S hm)); [|rewrite K, app_length, !map_length; lia]. apply NoDup_same; [auto| |].
    - apply NoDup_app2; [| |intros x K1 K2; apply in_map_iff in K1 as (a & <- & K1); apply in_map_iff in K2 as (b & K & K2); apply IM in K1; apply IM in K2; symmetry in K; revert K; apply FS_neq; [apply K1|apply K2]].
      + apply NoDup_map_inj; auto. intros a b Ha Hb. apply IM in Ha. apply IM in Hb. apply (sd_inj _ _ _ _ _ _ SD); [apply Ha|apply Hb].
      + apply NoDup_map_inj; auto. intros a b Ha Hb. apply IM in Ha. apply IM in Hb. apply (sd_inj _ _ _ _ _ _ SD); [apply Ha|apply Hb].
    - intros x. rewrite IH, in_app_iff, !in_map_iff. split.
      + intros (h & I & [->| ->]); [left|right]; exists h; split; auto; apply IM; auto.
      + intros [(h & <- & K)|(h & <- & K)]; apply IM in K; exists h; auto. }
  eexists r', _, _. split; [exact R|]. split; [apply (quart_next g2 X' Zz); auto|]. cbn [rM rE rF rP r1] in *.
  split; [cbn beta; rewrite Z.eqb_refl; auto|]. split; [intros k K; cbn beta; rewrite (proj2 (Z.eqb_neq _ _) K); auto|]. destruct (mg_fill _ _ _ _ _ A1) as (_ & M2 & _). destruct (sk_fill _ _ _ SK) as (_ & _ & S3).
  split; [lia|]. split; [auto|]. split; [auto|]. split; [intros k K1 K2 K3; rewrite A5 by auto; apply HF; auto|]. repeat split; lia.
Qed.
End Face.
End Quarter.
