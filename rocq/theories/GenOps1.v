(** Taking a halfedge out of the lists around its vertices, and putting it back *)
From Verif Require Import Base MeshModel MeshSpec MeshBase GenModel GenSpec GenBase GenOpsModel.
Open Scope Z_scope.

(** ** rings over a set *)
Definition RingOn (D : Z -> Prop) (f key : Z -> Z) : Prop :=
  (forall h, D h -> D (f h) /\ key (f h) = key h) /\ (forall a b, D a -> D b -> key a = key b -> reach f a b).
Lemma ringOn_Ring n f key : RingOn (fun h => 0 <= h < n) f key <-> Ring n f key. Proof. reflexivity. Qed.
Lemma ringOn_ext (D D' : Z -> Prop) f g key key' : (forall h, D' h <-> D h) -> (forall h, D h -> f h = g h) -> (forall h, D h -> key h = key' h) ->
  RingOn D f key -> RingOn D' g key'.
Proof.
  intros HD Hf Hk [R1 R2]. split.
  - intros h Hh. apply HD in Hh. destruct (R1 h Hh) as [A B]. rewrite <- Hf by auto. split; [apply HD; auto|]. rewrite <- !Hk by auto. exact B.
  - intros a b Ha Hb E. apply HD in Ha, Hb. rewrite <- !Hk in E by auto. destruct (R2 a b Ha Hb E) as (k & Hi). exists k. rewrite <- Hi.
    clear Hi E Hb b. assert (G : forall k, Nat.iter k g a = Nat.iter k f a /\ D (Nat.iter k f a)).
    { induction k0 as [|j [I1 I2]]; simpl; [auto|]. rewrite I1. split; [symmetry; apply Hf; auto|apply R1; auto]. }
    apply G.
Qed.
Lemma ringOn_back D f key h : RingOn D f key -> D h -> exists p, D p /\ f p = h /\ key p = key h.
Proof.
  intros [R1 R2] H. destruct (R1 h H) as [A B]. destruct (R2 (f h) h A H B) as (k & E).
  assert (G : forall k, D (Nat.iter k f (f h)) /\ key (Nat.iter k f (f h)) = key h).
  { induction k0 as [|j [I1 I2]]; simpl; [auto|]. destruct (R1 _ I1) as [X Y]. split; auto. congruence. }
  destruct k as [|k]; [exists h; simpl in E; auto|]. simpl in E. exists (Nat.iter k f (f h)). destruct (G k). auto.
Qed.

(** a doubly linked list per vertex, over the halfedges of [D] *)
Record Nbr (D : Z -> Prop) (nV : Z) (key N P S : Z -> Z) : Prop := {
  nb_ring : RingOn D N key;
  nb_prev : forall h, D h -> P (N h) = h;
  nb_key : forall h, D h -> 0 <= key h < nV;
  nb_start : forall v, 0 <= v < nV -> (S v = -1 /\ forall h, D h -> key h <> v) \/ (D (S v) /\ key (S v) = v) }.
Lemma nbr_ext D D' nV key key' N N' P P' S S' : (forall h, D' h <-> D h) -> (forall h, D h -> key h = key' h) -> (forall h, D h -> N h = N' h) ->
  (forall h, D h -> P h = P' h) -> (forall v, 0 <= v < nV -> S v = S' v) -> Nbr D nV key N P S -> Nbr D' nV key' N' P' S'.
Proof.
  intros HD Hk HN HP HS [R B K T]. constructor.
  - eapply ringOn_ext; eauto.
  - intros h Hh. apply HD in Hh. rewrite <- HN by auto. rewrite <- HP; [auto|]. apply R; auto.
  - intros h Hh. apply HD in Hh. rewrite <- Hk by auto. auto.
  - intros v Hv. rewrite <- HS by auto. destruct (T v Hv) as [[E F]|[E F]]; [left|right].
    + split; auto. intros h Hh. apply HD in Hh. rewrite <- Hk by auto. auto.
    + split; [apply HD; auto|]. rewrite <- Hk by auto. auto.
Qed.
Section NbrLemmas.
Context (D : Z -> Prop) (nV : Z) (key N P S : Z -> Z) (B : Nbr D nV key N P S).
Lemma nbr_pred i : D i -> D (P i) /\ N (P i) = i /\ key (P i) = key i.
Proof. intros H. destruct (ringOn_back _ _ _ i (nb_ring _ _ _ _ _ _ B) H) as (p & Dp & E & K). assert (X : P i = p) by (rewrite <- E; apply (nb_prev _ _ _ _ _ _ B p Dp)). rewrite X. auto. Qed.
Lemma nbr_inj a b : D a -> D b -> N a = N b -> a = b.
Proof. intros Ha Hb E. rewrite <- (nb_prev _ _ _ _ _ _ B a Ha), <- (nb_prev _ _ _ _ _ _ B b Hb). congruence. Qed.
Lemma nbr_succ i : D i -> D (N i) /\ key (N i) = key i. Proof. apply (nb_ring _ _ _ _ _ _ B). Qed.

Definition cutN (i : Z) : Z -> Z := fun j => if j =? i then -1 else if j =? P i then N i else N j.
Definition cutP (i : Z) : Z -> Z := fun j => if j =? i then -1 else if j =? N i then P i else P j.
Definition cutS (i : Z) : Z -> Z := fun v => if v =? key i then (if P i =? i then -1 else P i) else S v.
Lemma nbr_cut i : D i -> Nbr (fun h => D h /\ h <> i) nV key (cutN i) (cutP i) (cutS i).
Proof.
  intros Di. destruct (nbr_pred i Di) as (Dp & Np & Kp). destruct (nbr_succ i Di) as (Dn & Kn).
  assert (Step : forall h, D h -> h <> i -> (D (cutN i h) /\ cutN i h <> i) /\ key (cutN i h) = key h).
  { intros h Dh Hi. unfold cutN. destruct (Z.eqb_spec h i); [contradiction|]. destruct (Z.eqb_spec h (P i)) as [->|Q].
    - split; [split; auto|congruence]. intros E. apply Hi. apply nbr_inj; auto. congruence.
    - destruct (nbr_succ h Dh) as [X Y]. split; [split; auto|auto]. intros E. apply Q. apply nbr_inj; auto. congruence. }
  constructor.
  - split; [intros h [H1 H2]; auto|]. intros a b [Da Na] [Db Nb] E.
    destruct (proj2 (nb_ring _ _ _ _ _ _ B) a b Da Db E) as (k & Hk). clear E. revert a Da Na Hk. induction k as [k IH] using lt_wf_ind. intros a Da Na Hk.
    destruct k as [|k]; [simpl in Hk; subst; apply reach_refl|].
    destruct (Step a Da Na) as [[S1 S2] _].
    assert (Hc : exists j, (j < Datatypes.S k)%nat /\ Nat.iter j N (cutN i a) = b).
    { unfold cutN. destruct (Z.eqb_spec a i); [contradiction|]. destruct (Z.eqb_spec a (P i)) as [->|Q].
      - destruct k as [|k]; [simpl in Hk; congruence|]. exists k. split; [lia|]. replace (Datatypes.S (Datatypes.S k)) with (k + 2)%nat in Hk by lia.
        rewrite iter_add in Hk. simpl in Hk. rewrite Np in Hk. exact Hk.
      - exists k. split; [lia|]. replace (Datatypes.S k) with (k + 1)%nat in Hk by lia. rewrite iter_add in Hk. exact Hk. }
    destruct Hc as (j & Hj & Ej). apply reach_trans with (cutN i a); [apply reach_step|]. apply (IH j); auto.
  - intros h [Dh Hi]. destruct (Step h Dh Hi) as [[S1 S2] _]. unfold cutP. destruct (Z.eqb_spec (cutN i h) i); [contradiction|].
    unfold cutN in *. destruct (Z.eqb_spec h i); [contradiction|]. destruct (Z.eqb_spec h (P i)) as [->|Q]; [rewrite Z.eqb_refl; auto|].
    destruct (Z.eqb_spec (N h) (N i)) as [E|_]; [exfalso; apply Hi; apply nbr_inj; auto|]. apply (nb_prev _ _ _ _ _ _ B); auto.
  - intros h [Dh _]. apply (nb_key _ _ _ _ _ _ B); auto.
  - intros v Hv. unfold cutS. destruct (Z.eqb_spec v (key i)) as [->|Q].
    + destruct (Z.eqb_spec (P i) i) as [E|E]; [left|right; auto]. split; auto. intros h [Dh Hi] K. apply Hi.
      destruct (proj2 (nb_ring _ _ _ _ _ _ B) i h Di Dh (eq_sym K)) as (k & <-). rewrite E in Np. clear - Np. induction k as [|k IH]; simpl; congruence.
    + destruct (nb_start _ _ _ _ _ _ B v Hv) as [[E F]|[E F]]; [left|right].
      * split; auto. intros h [Dh _]. auto.
      * split; auto. split; auto. intros Ei. rewrite Ei in F. congruence.
Qed.

(** putting [i] in: before the start of the list of its vertex *)
Definition addN (i : Z) : Z -> Z := let s := S (key i) in
  if s =? -1 then fun j => if j =? i then i else N j else fun j => if j =? i then s else if j =? P s then i else N j.
Definition addP (i : Z) : Z -> Z := let s := S (key i) in
  if s =? -1 then fun j => if j =? i then i else P j else fun j => if j =? s then i else if j =? i then P s else P j.
Definition addS (i : Z) : Z -> Z := let s := S (key i) in if s =? -1 then fun v => if v =? key i then i else S v else S.
Lemma nbr_add i : (forall h, D h -> 0 <= h) -> ~ D i -> 0 <= key i < nV -> Nbr (fun h => D h \/ h = i) nV key (addN i) (addP i) (addS i).
Proof.
  intros Nn Di Ki. unfold addN, addP, addS. cbv zeta. destruct (nb_start _ _ _ _ _ _ B (key i) Ki) as [[-> F]|[Ds Ks]].
  - rewrite Z.eqb_refl. assert (Old : forall h, D h -> (h =? i) = false) by (intros h Dh; apply Z.eqb_neq; intros ->; contradiction).
    constructor.
    + split.
      * intros h [Dh| ->]; [rewrite Old by auto; destruct (nbr_succ h Dh); auto|rewrite Z.eqb_refl; auto].
      * intros a b [Da| ->] [Db| ->] E; [|exfalso; apply (F a); auto|exfalso; apply (F b); auto|apply reach_refl].
        destruct (proj2 (nb_ring _ _ _ _ _ _ B) a b Da Db E) as (k & Hk). exists k. rewrite <- Hk.
        assert (G : forall k, Nat.iter k (fun j => if j =? i then i else N j) a = Nat.iter k N a /\ D (Nat.iter k N a)).
        { induction k0 as [|j [I1 I2]]; simpl; [auto|]. rewrite I1, Old by auto. split; auto. apply nbr_succ; auto. }
        apply G.
    + intros h [Dh| ->]; [rewrite (Old h Dh), (Old (N h)) by (apply nbr_succ; auto); apply (nb_prev _ _ _ _ _ _ B); auto|rewrite !Z.eqb_refl; auto].
    + intros h [Dh| ->]; [apply (nb_key _ _ _ _ _ _ B); auto|auto].
    + intros v Hv. destruct (Z.eqb_spec v (key i)) as [->|Q]; [right; auto|].
      destruct (nb_start _ _ _ _ _ _ B v Hv) as [[E G]|[E G]]; [left|right; auto]. split; auto. intros h [Dh| ->]; [auto|congruence].
  - set (s := S (key i)) in *. destruct (Z.eqb_spec s (-1)) as [E|_]; [pose proof (Nn s Ds); lia|].
    destruct (nbr_pred s Ds) as (Dp & Np & Kp). assert (Old : forall h, D h -> (h =? i) = false) by (intros h Dh; apply Z.eqb_neq; intros ->; contradiction).
    set (N' := fun j => if j =? i then s else if j =? P s then i else N j).
    assert (Ri : N' i = s) by (unfold N'; rewrite Z.eqb_refl; auto).
    assert (Rp : N' (P s) = i) by (unfold N'; rewrite Old by auto; rewrite Z.eqb_refl; auto).
    assert (Sim : forall k a, D a -> reach N' a (Nat.iter k N a)).
    { induction k as [|k IH]; intros a Da; [apply reach_refl|]. assert (Dk : D (Nat.iter k N a)) by (clear IH; induction k as [|j J]; simpl; auto; apply nbr_succ; auto).
      simpl. eapply reach_trans; [apply IH; auto|]. destruct (Z.eq_dec (Nat.iter k N a) (P s)) as [E|E].
      - rewrite E, Np. exists 2%nat. simpl. rewrite Rp, Ri. auto.
      - exists 1%nat. simpl. unfold N'. rewrite Old by auto. destruct (Z.eqb_spec (Nat.iter k N a) (P s)); [contradiction|auto]. }
    assert (Sim2 : forall a b, D a -> D b -> key a = key b -> reach N' a b).
    { intros a b Da Db E. destruct (proj2 (nb_ring _ _ _ _ _ _ B) a b Da Db E) as (k & <-). apply Sim; auto. }
    constructor.
    + split.
      * intros h [Dh| ->]; [|rewrite Ri; auto]. unfold N'. rewrite Old by auto. destruct (Z.eqb_spec h (P s)) as [->|Q]; [split; [auto|congruence]|].
        destruct (nbr_succ h Dh); auto.
      * intros a b [Da| ->] [Db| ->] E; [auto| | |apply reach_refl].
        -- eapply reach_trans; [apply (Sim2 a (P s)); auto; congruence|]. exists 1%nat. exact Rp.
        -- apply reach_trans with s; [exists 1%nat; exact Ri|]. apply Sim2; auto. congruence.
    + fold N'. intros h [Dh| ->].
      * unfold N'. rewrite (Old h Dh). destruct (Z.eqb_spec h (P s)) as [->|Q].
        -- rewrite Z.eqb_refl. destruct (Z.eqb_spec i s) as [E|]; [exfalso; apply Di; rewrite E; exact Ds|auto].
        -- destruct (Z.eqb_spec (N h) s) as [E|_].
           ++ exfalso. apply Q. apply nbr_inj; auto. congruence.
           ++ rewrite Old by (apply nbr_succ; auto). apply (nb_prev _ _ _ _ _ _ B); auto.
      * rewrite Ri, Z.eqb_refl. auto.
    + intros h [Dh| ->]; [apply (nb_key _ _ _ _ _ _ B); auto|auto].
    + intros v Hv. destruct (nb_start _ _ _ _ _ _ B v Hv) as [[E G]|[E G]]; [|right; auto].
      left. split; auto. intros h [Dh| ->]; auto. intros K. apply (G s); auto. congruence.
Qed.
End NbrLemmas.

(** ** the arrays *)
Definition sameBut (L : list arr) (m m' : gmesh) : Prop :=
  frame m' = frame m /\ gComp m' = gComp m /\ (forall a, zlen (ga m' a) = zlen (ga m a)) /\ forall a, ~ In a L -> ga m' a = ga m a.
Lemma sameBut_refl L m : sameBut L m m. Proof. repeat split. Qed.
Lemma sameBut_trans L a b c : sameBut L a b -> sameBut L b c -> sameBut L a c.
Proof.
  intros (A1 & A2 & A3 & A4) (B1 & B2 & B3 & B4). split; [congruence|]. split; [congruence|]. split; [intros x; congruence|].
  intros x Hx. rewrite B4, A4; auto.
Qed.
Lemma sameBut_incl L L' a b : incl L L' -> sameBut L a b -> sameBut L' a b.
Proof. intros I (A1 & A2 & A3 & A4). repeat split; auto. Qed.
Lemma sameBut_wA L m a i x : In a L -> sameBut L m (wA m a i x).
Proof.
  intros I. split; [reflexivity|]. split; [reflexivity|]. split; [intros b; apply len_wA|]. intros b Hb. unfold wA, setA, put. cbn [ga].
  rewrite arr_eqb_neq; auto. intros ->. contradiction.
Qed.
Lemma sameBut_ev L m m' a i : sameBut L m m' -> ~ In a L -> ev m' a i = ev m a i.
Proof. intros (_ & _ & _ & H) Ha. unfold ev. rewrite H; auto. Qed.
Lemma sameBut_fill L m m' t : sameBut L m m' -> gFill m' t = gFill m t /\ gCap m' t = gCap m t.
Proof. intros (H & _). unfold frame in H. inversion H. destruct t; cbn [gFill gCap]; auto. Qed.

Section Lists.
Context (S N P : arr) (TS : typeOf S = TVe) (TN : typeOf N = THe) (TP : typeOf P = THe) (NP : N <> P).
Lemma SN : S <> N. Proof. intros E. rewrite E in TS. congruence. Qed.
Lemma SP : S <> P. Proof. intros E. rewrite E in TS. congruence. Qed.
Definition NbrA (D : Z -> Prop) (key : Z -> Z) (m : gmesh) : Prop := Nbr D (gVFill m) key (ev m N) (ev m P) (ev m S).
Definition Fits (m : gmesh) : Prop := (forall a, zlen (ga m a) = gCap m (typeOf a)) /\ (forall t, 0 <= gFill m t <= gCap m t).
Lemma unlink_ok m (D : Z -> Prop) key i vertex : Fits m -> (forall h, D h -> inH m h) -> NbrA D key m -> D i ->
  (forall m', sameBut [S; N; P] m m' -> vertex m' = Ok (key i)) ->
  exists m', gUnlink m S N P i vertex = Ok m' /\ sameBut [S; N; P] m m' /\ NbrA (fun h => D h /\ h <> i) key m'.
Proof.
  intros [FL FF] DH B Di Hv. destruct (nbr_pred _ _ _ _ _ _ B i Di) as (Dp & Np & Kp). destruct (nbr_succ _ _ _ _ _ _ B i Di) as (Dn & Kn).
  assert (LH : forall a h, typeOf a = THe -> D h -> 0 <= h < zlen (ga m a)).
  { intros a h T Dh. rewrite FL, T. pose proof (FF THe) as X. specialize (DH h Dh). red in DH. cbn [gFill gCap] in *. lia. }
  assert (LV : 0 <= key i < zlen (ga m S)).
  { rewrite FL, TS. pose proof (FF TVe) as X. pose proof (nb_key _ _ _ _ _ _ B i Di). cbn [gFill gCap] in *. lia. }
  unfold gUnlink. rewrite !rdA_ok by (apply LH; auto). cbn [bind].
  rewrite wrA_ok by (apply LH; auto). cbn [bind]. rewrite wrA_ok by (rewrite !len_wA; apply LH; auto). cbn [bind].
  rewrite wrA_ok by (rewrite !len_wA; apply LH; auto). cbn [bind]. rewrite wrA_ok by (rewrite !len_wA; apply LH; auto). cbn [bind].
  assert (S4 : sameBut [S; N; P] m (wA (wA (wA (wA m N (ev m P i) (ev m N i)) P (ev m N i) (ev m P i)) N i INVALID) P i INVALID)).
  { repeat (eapply sameBut_trans; [|apply sameBut_wA; simpl; tauto]). apply sameBut_refl. }
  rewrite (Hv _ S4). cbn [bind]. rewrite wrA_ok by (rewrite !len_wA; exact LV). eexists. split; [reflexivity|].
  split; [eapply sameBut_trans; [exact S4|apply sameBut_wA; simpl; tauto]|].
  pose proof (nbr_cut _ _ _ _ _ _ B i Di) as C. unfold NbrA. change (gVFill (wA _ _ _ _)) with (gVFill m). eapply nbr_ext; [| | | | |exact C]; try reflexivity.
  - intros h [Dh Hi]. unfold cutN. rewrite ev_other by apply SN. rewrite ev_other by congruence. rewrite ev_same by (rewrite !len_wA; apply LH; auto).
    destruct (h =? i); [reflexivity|]. rewrite ev_other by congruence. rewrite ev_same by (apply LH; auto). reflexivity.
  - intros h [Dh Hi]. unfold cutP. rewrite ev_other by apply SP. rewrite ev_same by (rewrite !len_wA; apply LH; auto).
    destruct (h =? i); [reflexivity|]. rewrite ev_other by congruence. rewrite ev_same by (rewrite !len_wA; apply LH; auto). rewrite ev_other by congruence. reflexivity.
  - intros v Hv'. unfold cutS. rewrite ev_same by (rewrite !len_wA; exact LV). rewrite !ev_other by (pose proof SN; pose proof SP; congruence). reflexivity.
Qed.
Lemma nlink_ok m (D : Z -> Prop) key i vertex : Fits m -> (forall h, D h -> inH m h) -> NbrA D key m -> inH m i -> ~ D i -> 0 <= key i < gVFill m ->
  vertex m = Ok (key i) ->
  exists m', gLink m S N P i vertex = Ok m' /\ sameBut [S; N; P] m m' /\ NbrA (fun h => D h \/ h = i) key m'.
Proof.
  intros [FL FF] DH B Hi Di Ki Hv.
  assert (LH : forall a h, typeOf a = THe -> inH m h -> 0 <= h < zlen (ga m a)).
  { intros a h T Dh. rewrite FL, T. pose proof (FF THe) as X. red in Dh. cbn [gFill gCap] in *. lia. }
  assert (LV : 0 <= key i < zlen (ga m S)).
  { rewrite FL, TS. pose proof (FF TVe) as X. cbn [gFill gCap] in *. lia. }
  assert (Nn : forall h, D h -> 0 <= h) by (intros h Dh; apply (DH h Dh)).
  pose proof (nbr_add _ _ _ _ _ _ B i Nn Di Ki) as C. unfold addN, addP, addS in C. cbv zeta in C.
  unfold gLink. rewrite Hv. cbn [bind]. rewrite rdA_ok by exact LV. cbn [bind]. change INVALID with (-1).
  destruct (nb_start _ _ _ _ _ _ B (key i) Ki) as [[E F]|[Ds Ks]].
  - rewrite E in *. change (-1 =? -1) with true in *. cbv iota in *.
    rewrite wrA_ok by (apply LH; auto). cbn [bind]. rewrite wrA_ok by (rewrite !len_wA; apply LH; auto). cbn [bind].
    rewrite wrA_ok by (rewrite !len_wA; exact LV). eexists. split; [reflexivity|].
    split; [repeat (eapply sameBut_trans; [|apply sameBut_wA; simpl; tauto]); apply sameBut_refl|].
    unfold NbrA. change (gVFill (wA _ _ _ _)) with (gVFill m). eapply nbr_ext; [| | | | |exact C]; try reflexivity.
    + intros h _. cbv beta. rewrite ev_other by apply SN. rewrite ev_same by (rewrite !len_wA; apply LH; auto). rewrite ev_other by congruence. reflexivity.
    + intros h _. cbv beta. rewrite ev_other by apply SP. rewrite ev_other by congruence. rewrite ev_same by (apply LH; auto). reflexivity.
    + intros v _. cbv beta. rewrite ev_same by (rewrite !len_wA; exact LV). rewrite !ev_other by (pose proof SN; pose proof SP; congruence). reflexivity.
  - destruct (Z.eqb_spec (ev m S (key i)) (-1)) as [E|_]; [specialize (Nn _ Ds); lia|].
    destruct (nbr_pred _ _ _ _ _ _ B _ Ds) as (Dp & Np & Kp). pose proof (DH _ Ds) as Hs. pose proof (DH _ Dp) as Hp.
    rewrite rdA_ok by (apply LH; auto). cbn [bind]. rewrite wrA_ok by (apply LH; auto). cbn [bind].
    rewrite wrA_ok by (rewrite !len_wA; apply LH; auto). cbn [bind]. rewrite wrA_ok by (rewrite !len_wA; apply LH; auto). cbn [bind].
    rewrite wrA_ok by (rewrite !len_wA; apply LH; auto). eexists. split; [reflexivity|].
    split; [repeat (eapply sameBut_trans; [|apply sameBut_wA; simpl; tauto]); apply sameBut_refl|].
    unfold NbrA. change (gVFill (wA _ _ _ _)) with (gVFill m). eapply nbr_ext; [| | | | |exact C]; try reflexivity.
    + intros h _. cbv beta. rewrite ev_other by congruence. rewrite ev_same by (rewrite !len_wA; apply LH; auto). destruct (h =? i); [reflexivity|].
      rewrite ev_other by congruence. rewrite ev_same by (apply LH; auto). reflexivity.
    + intros h _. cbv beta. rewrite ev_same by (rewrite !len_wA; apply LH; auto). destruct (h =? ev m S (key i)); [reflexivity|].
      rewrite ev_other by congruence. rewrite ev_same by (rewrite !len_wA; apply LH; auto). destruct (h =? i); [reflexivity|]. rewrite ev_other by congruence. reflexivity.
    + intros v _. rewrite !ev_other by (pose proof SN; pose proof SP; congruence). reflexivity.
Qed.
End Lists.
