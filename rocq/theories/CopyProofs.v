(** Proofs for C24 *)
From Verif Require Import Base MeshModel MeshModel2 MeshCompressModel MeshSpec DataModel MeshDataModel MeshEvents MeshHistoryModel MeshHistorySpec MeshHistory MeshCompress CopyModel CopySpec.
Open Scope Z_scope.

Lemma copy_same m : copyMesh m = m.
Proof. destruct m. reflexivity. Qed.
Lemma copied_refl m : Copied m m.
Proof. split; tauto. Qed.
Lemma copy_copied m : Copied m (copyMesh m).
Proof. rewrite copy_same. apply copied_refl. Qed.

(** ** pointwise *)
Lemma mapM_swap {A} (f g : A -> res A) : (forall a b c, f a = Ok b -> g b = Ok c -> exists b', g a = Ok b' /\ f b' = Ok c) ->
  forall l l1 l2, mapM f l = Ok l1 -> mapM g l1 = Ok l2 -> exists l1', mapM g l = Ok l1' /\ mapM f l1' = Ok l2.
Proof.
  intros H l. induction l as [|a l IH]; cbn [mapM]; intros l1 l2 E1 E2.
  - injection E1 as <-. cbn [mapM] in E2. injection E2 as <-. exists []. auto.
  - apply bind_Ok_inv in E1 as (b & Eb & E1). apply bind_Ok_inv in E1 as (t & Et & E1). injection E1 as <-. cbn [mapM] in E2.
    apply bind_Ok_inv in E2 as (c & Ec & E2). apply bind_Ok_inv in E2 as (t2 & Et2 & E2). injection E2 as <-.
    destruct (H _ _ _ Eb Ec) as (b' & G1 & G2). destruct (IH _ _ Et Et2) as (t' & G3 & G4). exists (b' :: t'). rewrite G1. cbn [bind]. rewrite G3. cbn [bind mapM]. rewrite G2. cbn [bind]. rewrite G4. auto.
Qed.
Lemma mapM_nth {A B} (f : A -> res B) l l' : mapM f l = Ok l' -> forall i, match nth_error l i with Some a => exists b, f a = Ok b /\ nth_error l' i = Some b | None => nth_error l' i = None end.
Proof.
  revert l'. induction l as [|a l IH]; cbn [mapM]; intros l' E i.
  - injection E as <-. destruct i; reflexivity.
  - apply bind_Ok_inv in E as (b & Eb & E). apply bind_Ok_inv in E as (t & Et & E). injection E as <-. destruct i; cbn [nth_error]; [eauto|apply IH; auto].
Qed.
Lemma mapM_upd {A B} (f : A -> res B) x y : f x = Ok y -> forall l l' i, mapM f l = Ok l' -> mapM f (upd l i x) = Ok (upd l' i y).
Proof.
  intros F l. induction l as [|a l IH]; cbn [mapM]; intros l' i E.
  - injection E as <-. destruct i; reflexivity.
  - apply bind_Ok_inv in E as (b & Eb & E). apply bind_Ok_inv in E as (t & Et & E). injection E as <-. destruct i; cbn [upd mapM].
    + rewrite F. cbn [bind]. rewrite Et. reflexivity.
    + rewrite Eb. cbn [bind]. rewrite (IH _ _ Et). reflexivity.
Qed.
Lemma mapM_upd_inv {A B} (f : A -> res B) x y a : f x = Ok y -> (exists b, f a = Ok b) -> forall l l' i, nth_error l i = Some a -> mapM f (upd l i x) = Ok l' ->
  exists l0, mapM f l = Ok l0 /\ l' = upd l0 i y.
Proof.
  intros F (b & Fa) l. induction l as [|c l IH]; intros l' i N E.
  - destruct i; discriminate.
  - destruct i; cbn [upd mapM nth_error] in *.
    + injection N as ->. rewrite F in E. cbn [bind] in E. apply bind_Ok_inv in E as (t & Et & E). injection E as <-. exists (b :: t). rewrite Fa, Et. auto.
    + apply bind_Ok_inv in E as (c' & Ec & E). apply bind_Ok_inv in E as (t & Et & E). injection E as <-. destruct (IH _ _ N Et) as (l0 & E0 & ->). exists (c' :: l0). rewrite Ec. cbn [bind]. rewrite E0. auto.
Qed.
Lemma mapM_all {A B} (f : A -> res B) l : (forall a, In a l -> exists b, f a = Ok b) -> exists l', mapM f l = Ok l'.
Proof.
  induction l as [|a l IH]; intros H; cbn [mapM].
  - eauto.
  - destruct (H a (or_introl eq_refl)) as (b & ->). destruct IH as (t & ->); [intros; apply H; right; auto|]. cbn [bind]. eauto.
Qed.
Lemma upd_upd_comm {A} (l : list A) i j x y : i <> j -> upd (upd l i x) j y = upd (upd l j y) i x.
Proof. revert i j. induction l as [|a l IH]; intros [|i] [|j] H; cbn [upd]; auto; try congruence. rewrite IH; auto. Qed.
Lemma rd_upd_neq {A} (l : list A) i j x : i <> j -> rd (upd l i x) j = rd l j.
Proof. intros H. unfold rd. rewrite nth_error_upd_neq; auto. Qed.
Lemma rd_of {A} (l : list A) i x : nth_error l i = Some x -> rd l i = Ok x.
Proof. intros H. unfold rd. rewrite H. reflexivity. Qed.
Lemma nth_old {A} (l t : list A) i x : nth_error l i = Some x -> nth_error (l ++ t) i = Some x.
Proof. intros H. rewrite nth_error_app1; auto. apply nth_error_Some. congruence. Qed.
Lemma nth_snoc {A} (l : list A) x i y : nth_error (l ++ [x]) i = Some y -> nth_error l i = Some y \/ i = length l /\ y = x.
Proof.
  intros H. destruct (Nat.lt_ge_cases i (length l)) as [L|L]; [left; rewrite nth_error_app1 in H; auto|]. right. rewrite nth_error_app2 in H by auto.
  destruct (i - length l)%nat eqn:E; cbn in H; [injection H as <-; split; auto; lia|]. destruct n; discriminate.
Qed.

(** ** one mesh is not affected by work on another *)
Lemma notify_owner T i m m' (c c' : container T) : notify i m m' c = Ok c' -> cMesh c' = cMesh c /\ cKind c' = cKind c /\ (cMesh c <> i -> c' = c).
Proof.
  unfold notify. destruct (Nat.eqb_spec (cMesh c) i).
  - intros E. apply bind_Ok_inv in E as (d & _ & E). injection E as <-. cbn. split; auto. split; auto. intros. exfalso. auto.
  - intros E. injection E as <-. auto.
Qed.
Lemma step_apart T (w w' : world T) c i : wstep w c = Ok w' -> ~ concerns w i c ->
  (forall m, nth_error (meshes w) i = Some m -> nth_error (meshes w') i = Some m) /\
  (forall b d, nth_error (containers w) b = Some d -> cMesh d = i -> nth_error (containers w') b = Some d).
Proof.
  destruct c as [j|j o|j k x|b j x|b|b j]; cbn [wstep concerns]; intros E C.
  - apply bind_Ok_inv in E as (m & Em & E). injection E as <-. cbn [meshes containers]. split; intros; auto using nth_old.
  - apply bind_Ok_inv in E as (m & Em & E). apply bind_Ok_inv in E as (m' & Em' & E). apply bind_Ok_inv in E as (cs & Ec & E). injection E as <-. cbn [meshes containers]. split.
    + intros. rewrite nth_error_upd_neq; auto.
    + intros b d N O. pose proof (mapM_nth _ _ _ Ec b) as K. rewrite N in K. destruct K as (d' & K1 & K2). apply notify_owner in K1 as (_ & _ & K). rewrite K2, K; auto. intros Q. apply C. congruence.
  - apply bind_Ok_inv in E as (m & Em & E). injection E as <-. cbn [meshes containers]. split; intros; auto using nth_old.
  - apply bind_Ok_inv in E as (d0 & E0 & E). apply bind_Ok_inv in E as (d1 & E1 & E). injection E as <-. cbn [meshes containers]. split; auto.
    intros b' d N O. apply rd_Ok_inv in E0 as [E0 _]. rewrite nth_error_upd_neq; auto. intros ->. apply C. rewrite E0 in N. injection N as <-. eauto.
  - apply bind_Ok_inv in E as (m & Em & E). injection E as <-. cbn [meshes containers]. split; intros; auto using nth_old.
  - apply bind_Ok_inv in E as (d0 & E0 & E). apply bind_Ok_inv in E as (m0 & Em0 & E). apply bind_Ok_inv in E as (m1 & E1 & E). apply bind_Ok_inv in E as (u & _ & E). injection E as <-. cbn [meshes containers]. split; intros; auto using nth_old.
Qed.
Lemma run_apart T i l : forall (w w' : world T), wrun w l = Ok w' -> avoids i w l ->
  (forall m, nth_error (meshes w) i = Some m -> nth_error (meshes w') i = Some m) /\
  (forall b d, nth_error (containers w) b = Some d -> cMesh d = i -> nth_error (containers w') b = Some d).
Proof.
  unfold wrun. induction l as [|c t IH]; cbn [foldM avoids]; intros w w' E A.
  - injection E as <-. auto.
  - apply bind_Ok_inv in E as (w1 & E1 & E). destruct A as [C A]. destruct (step_apart T w w1 c i E1 C) as [S1 S2]. destruct (IH w1 w' E (A _ E1)) as [R1 R2]. split; intros; [apply R1, S1; auto|apply R2; auto].
Qed.
(** containers stay attached to the mesh they were created for *)
Lemma step_owner T (w w' : world T) c b d : wstep w c = Ok w' -> nth_error (containers w) b = Some d -> exists d', nth_error (containers w') b = Some d' /\ cMesh d' = cMesh d /\ cKind d' = cKind d.
Proof.
  intros E N. destruct c as [j|j o|j k x|b0 j x|b0|b0 j]; cbn [wstep] in E.
  - apply bind_Ok_inv in E as (m & Em & E). injection E as <-. cbn [containers]. eauto.
  - apply bind_Ok_inv in E as (m & Em & E). apply bind_Ok_inv in E as (m' & Em' & E). apply bind_Ok_inv in E as (cs & Ec & E). injection E as <-. cbn [containers].
    pose proof (mapM_nth _ _ _ Ec b) as K. rewrite N in K. destruct K as (d' & K1 & K2). apply notify_owner in K1 as (? & ? & _). eauto.
  - apply bind_Ok_inv in E as (m & Em & E). injection E as <-. cbn [containers]. exists d. auto using nth_old.
  - apply bind_Ok_inv in E as (d0 & E0 & E). apply bind_Ok_inv in E as (d1 & E1 & E). injection E as <-. cbn [containers]. apply rd_Ok_inv in E0 as [E0 L].
    destruct (Nat.eq_dec b0 b) as [->|Q]; [|exists d; rewrite nth_error_upd_neq; auto]. rewrite nth_error_upd_eq by auto. eexists. split; [reflexivity|]. cbn. rewrite E0 in N. injection N as <-. auto.
  - apply bind_Ok_inv in E as (m & Em & E). injection E as <-. cbn [containers]. exists d. auto using nth_old.
  - apply bind_Ok_inv in E as (d0 & E0 & E). apply bind_Ok_inv in E as (m0 & Em0 & E). apply bind_Ok_inv in E as (m1 & E1 & E). apply bind_Ok_inv in E as (u & _ & E). injection E as <-. cbn [containers]. exists d. auto using nth_old.
Qed.
Lemma run_owner T l : forall (w w' : world T) b d, wrun w l = Ok w' -> nth_error (containers w) b = Some d -> exists d', nth_error (containers w') b = Some d' /\ cMesh d' = cMesh d /\ cKind d' = cKind d.
Proof.
  unfold wrun. induction l as [|c t IH]; cbn [foldM]; intros w w' b d E N.
  - injection E as <-. eauto.
  - apply bind_Ok_inv in E as (w1 & E1 & E). destruct (step_owner T w w1 c b d E1 N) as (d1 & N1 & O1 & K1). destruct (IH _ _ _ _ E N1) as (d2 & N2 & O2 & K2). exists d2. split; auto. split; congruence.
Qed.

(** ** calls about different meshes commute *)
Lemma notify_swap T i j m m' n n' : i <> j -> forall a b c : container T, notify i m m' a = Ok b -> notify j n n' b = Ok c -> exists b', notify j n n' a = Ok b' /\ notify i m m' b' = Ok c.
Proof.
  intros H a b c E1 E2. pose proof (notify_owner _ _ _ _ _ _ E1) as (O1 & _ & K1). pose proof (notify_owner _ _ _ _ _ _ E2) as (O2 & _ & K2). destruct (Nat.eq_dec (cMesh a) i) as [Q|Q].
  - exists a. rewrite K2 by congruence. split; auto. unfold notify. destruct (Nat.eqb_spec (cMesh a) j); congruence.
  - exists c. rewrite K1 in E2 by auto. split; auto. unfold notify. destruct (Nat.eqb_spec (cMesh c) i); auto. rewrite O2, K1 in e by auto. congruence.
Qed.
Lemma notify_other T i m m' (c : container T) : cMesh c <> i -> notify i m m' c = Ok c.
Proof. intros H. unfold notify. destruct (Nat.eqb_spec (cMesh c) i); congruence. Qed.
Lemma commute T (w w' : world T) i j c1 c2 : concerns w i c1 -> concerns w j c2 -> i <> j -> wrun w [c1; c2] = Ok w' -> wrun w [c2; c1] = Ok w'.
Proof.
  unfold wrun. cbn [foldM]. intros C1 C2 N E. apply bind_Ok_inv in E as (w1 & E1 & E). apply bind_Ok_inv in E as (w2 & E2 & E). injection E as <-.
  destruct c1 as [|i1 o1| |b1 j1 x1| |]; cbn [concerns] in C1; try contradiction; destruct c2 as [|i2 o2| |b2 j2 x2| |]; cbn [concerns] in C2; try contradiction; cbn [wstep] in *.
  - subst i1 i2. apply bind_Ok_inv in E1 as (m & Em & E1). apply bind_Ok_inv in E1 as (m' & Em' & E1). apply bind_Ok_inv in E1 as (cs & Ec & E1). injection E1 as <-. cbn [meshes containers] in E2.
    rewrite rd_upd_neq in E2 by auto. apply bind_Ok_inv in E2 as (n & En & E2). apply bind_Ok_inv in E2 as (n' & En' & E2). apply bind_Ok_inv in E2 as (cs2 & Ec2 & E2). injection E2 as <-.
    destruct (mapM_swap _ _ (notify_swap T i j m m' n n' N) _ _ _ Ec Ec2) as (cs' & G1 & G2). rewrite En. cbn [bind]. rewrite En'. cbn [bind]. rewrite G1. cbn [bind meshes containers].
    rewrite rd_upd_neq, Em by auto. cbn [bind]. rewrite Em'. cbn [bind]. rewrite G2. cbn [bind]. rewrite upd_upd_comm by auto. reflexivity.
  - subst i1. destruct C2 as (d & Nd & Od). apply bind_Ok_inv in E1 as (m & Em & E1). apply bind_Ok_inv in E1 as (m' & Em' & E1). apply bind_Ok_inv in E1 as (cs & Ec & E1). injection E1 as <-. cbn [meshes containers] in E2.
    apply bind_Ok_inv in E2 as (d0 & E0 & E2). apply bind_Ok_inv in E2 as (d1 & Es & E2). injection E2 as <-. apply rd_Ok_inv in E0 as [E0 _].
    pose proof (mapM_nth _ _ _ Ec b2) as K. rewrite Nd in K. destruct K as (d' & K1 & K2). rewrite notify_other in K1 by congruence. injection K1 as <-. rewrite K2 in E0. injection E0 as <-.
    rewrite (rd_of _ _ _ Nd). cbn [bind]. rewrite Es. cbn [bind meshes containers]. rewrite Em. cbn [bind]. rewrite Em'. cbn [bind].
    assert (Q : notify i m m' (mkC (cMesh d) (cKind d) d1) = Ok (mkC (cMesh d) (cKind d) d1)) by (apply notify_other; cbn [cMesh]; congruence).
    rewrite (mapM_upd _ _ _ Q _ _ b2 Ec). reflexivity.
  - subst i2. destruct C1 as (d & Nd & Od). apply bind_Ok_inv in E1 as (d0 & E0 & E1). apply bind_Ok_inv in E1 as (d1 & Es & E1). injection E1 as <-. cbn [meshes containers] in E2.
    apply rd_Ok_inv in E0 as [E0 _]. rewrite Nd in E0. injection E0 as <-.
    apply bind_Ok_inv in E2 as (m & Em & E2). apply bind_Ok_inv in E2 as (m' & Em' & E2). apply bind_Ok_inv in E2 as (cs & Ec & E2). injection E2 as <-.
    rewrite Em. cbn [bind]. rewrite Em'. cbn [bind].
    destruct (mapM_upd_inv (notify j m m') (mkC (cMesh d) (cKind d) d1) (mkC (cMesh d) (cKind d) d1) d) with (l := containers w) (l' := cs) (i := b1) as (l0 & G & ->); auto.
    + apply notify_other. cbn. congruence.
    + exists d. apply notify_other. congruence.
    + rewrite G. cbn [bind meshes containers]. pose proof (mapM_nth _ _ _ G b1) as K. rewrite Nd in K. destruct K as (d' & K1 & K2). rewrite notify_other in K1 by congruence. injection K1 as <-.
      rewrite (rd_of _ _ _ K2). cbn [bind]. rewrite Es. reflexivity.
  - destruct C1 as (d & Nd & Od), C2 as (e & Ne & Oe). assert (Q : b1 <> b2) by congruence.
    apply bind_Ok_inv in E1 as (d0 & E0 & E1). apply bind_Ok_inv in E1 as (d1 & Es & E1). injection E1 as <-. cbn [meshes containers] in E2. rewrite rd_upd_neq in E2 by auto.
    apply bind_Ok_inv in E2 as (e0 & E0' & E2). apply bind_Ok_inv in E2 as (e1 & Es' & E2). injection E2 as <-. rewrite E0'. cbn [bind]. rewrite Es'. cbn [bind meshes containers]. rewrite rd_upd_neq, E0 by auto. cbn [bind].
    rewrite Es. cbn [bind]. rewrite upd_upd_comm by auto. reflexivity.
Qed.

(** ** histories *)
Lemma fits_op T m o k (d : mdata T) : Start m -> OpPre m o -> Fits m k d -> exists m' d', applyOp m o = Ok m' /\ Start m' /\ follow k m m' d = Ok d' /\ Fits m' k d'.
Proof.
  intros S P F. destruct (mop_eq_compress o) as [->|Q].
  - destruct (start_step m OCompress S P) as (m' & E & S' & _). exists m'. cbn [applyOp] in E |- *. destruct (compressed m) eqn:C.
    + rewrite compress_compressed in E by auto. injection E as <-. exists d. split; [apply compress_compressed; auto|]. split; auto. split; auto. unfold follow, issued. rewrite Nat.sub_diag. reflexivity.
    + destruct (some_halfedges m (sr_valid _ S) (sr_some _ S)) as [_ P0]. destruct (data_compress T m k d (sr_valid _ S) P0 C F) as (m2 & d' & E2 & Fo & F' & _). rewrite E2 in E. injection E as ->. eauto 6.
  - destruct (mutation_data T m o k d S P Q F) as (m' & d' & E & S' & F' & _). cbn [applyD] in E. apply bind_Ok_inv in E as (m1 & E1 & E). apply bind_Ok_inv in E as (d1 & E2 & E). injection E as -> ->. eauto 6.
Qed.
Lemma fits_copied T m t k (d : mdata T) : Copied m t -> Fits m k d -> Fits t k d.
Proof.
  intros C [F1 F2 F3]. pose proof (cp_cap _ _ C) as Q1. pose proof (cp_fill _ _ C) as Q2. pose proof (Q2 EFace) as Q3. pose proof (Q2 ELoop) as Q4. cbn [fillOf] in Q3, Q4. split.
  - rewrite Q1. replace (maxSize t k) with (maxSize m k); auto. pose proof (Q1 EVertex). pose proof (Q1 EHalfedge). pose proof (Q1 EEdge). pose proof (Q1 EFace). destruct k; cbn [maxSize capacity] in *; lia.
  - rewrite Q2. auto.
  - lia.
Qed.
Lemma sound_step T (w : world T) c : Sound w -> CallPre w c -> exists w', wstep w c = Ok w' /\ Sound w'.
Proof.
  intros [SM SD] P. destruct c as [j|j o|j k x|b j x|b|b j]; cbn [wstep CallPre] in *.
  - destruct (nth_error (meshes w) j) as [m|] eqn:N; [|apply nth_error_None in N; lia]. rewrite (rd_of _ _ _ N). cbn [bind]. eexists. split; [reflexivity|]. split; cbn [meshes containers].
    + intros i q H. apply nth_snoc in H as [H|[_ ->]]; eauto. rewrite copy_same. eauto.
    + intros b d H. destruct (SD b d H) as (q & ? & ?). eauto using nth_old.
  - destruct P as (m & N & P). rewrite (rd_of _ _ _ N). cbn [bind]. pose proof (SM _ _ N) as S. destruct (start_step m o S P) as (m' & E & S' & _). rewrite E. cbn [bind].
    destruct (mapM_all (notify j m m') (containers w)) as (cs & Ec).
    { intros d I. unfold notify. destruct (Nat.eqb_spec (cMesh d) j); eauto. apply In_nth_error in I as (b & Nb). destruct (SD b d Nb) as (q & Nq & F). rewrite e, N in Nq. injection Nq as <-.
      destruct (fits_op T m o _ _ S P F) as (m1 & d1 & E1 & _ & Fo & _). rewrite E in E1. injection E1 as <-. rewrite Fo. cbn [bind]. eauto. }
    rewrite Ec. cbn [bind]. eexists. split; [reflexivity|]. assert (L : (j < length (meshes w))%nat) by (apply nth_error_Some; congruence). split; cbn [meshes containers].
    + intros i q H. destruct (Nat.eq_dec j i) as [->|Q]; [rewrite nth_error_upd_eq in H by auto; injection H as <-; auto|]. rewrite nth_error_upd_neq in H by auto. eauto.
    + intros b d H. pose proof (mapM_nth _ _ _ Ec b) as K. destruct (nth_error (containers w) b) as [d0|] eqn:Nb; [|congruence]. destruct K as (d' & K1 & K2). rewrite H in K2. injection K2 as <-.
      destruct (SD b d0 Nb) as (q & Nq & F). unfold notify in K1. destruct (Nat.eqb_spec (cMesh d0) j).
      * rewrite e, N in Nq. injection Nq as <-. destruct (fits_op T m o _ _ S P F) as (m1 & d1 & E1 & _ & Fo & F1). rewrite E in E1. injection E1 as <-. rewrite Fo in K1. cbn [bind] in K1. injection K1 as <-. cbn [cMesh cKind cData].
        exists m'. rewrite e, nth_error_upd_eq by auto. auto.
      * injection K1 as <-. exists q. rewrite nth_error_upd_neq by auto. auto.
  - destruct (nth_error (meshes w) j) as [m|] eqn:N; [|apply nth_error_None in N; lia]. rewrite (rd_of _ _ _ N). cbn [bind]. eexists. split; [reflexivity|]. split; cbn [meshes containers]; auto.
    intros b d H. apply nth_snoc in H as [H|[_ ->]]; [exact (SD _ _ H)|]. cbn [cMesh cKind cData]. exists m. split; auto. apply fits_new. apply SM in N. apply N.
  - destruct P as (d & m & Nb & N & L). rewrite (rd_of _ _ _ Nb). cbn [bind]. destruct (SD b d Nb) as (q & Nq & F). rewrite N in Nq. injection Nq as <-. pose proof (sr_valid _ (SM _ _ N)) as V.
    destruct (fits_write T m _ _ j x V F (liveE_use m _ j V L)) as (d' & E & F' & _). rewrite E. cbn [bind]. eexists. split; [reflexivity|]. assert (Lb : (b < length (containers w))%nat) by (apply nth_error_Some; congruence). split; cbn [meshes containers]; auto.
    intros b' e H. destruct (Nat.eq_dec b b') as [->|Q]; [rewrite nth_error_upd_eq in H by auto; injection H as <-; cbn [cMesh cKind cData]; eauto|]. rewrite nth_error_upd_neq in H by auto. exact (SD _ _ H).
  - destruct (nth_error (containers w) b) as [d|] eqn:N; [|apply nth_error_None in N; lia]. rewrite (rd_of _ _ _ N). cbn [bind]. eexists. split; [reflexivity|]. split; cbn [meshes containers]; auto.
    intros b' e H. apply nth_snoc in H as [H|[_ ->]]; eauto.
  - destruct P as (d & m & t & Nb & N & Nt & C). rewrite (rd_of _ _ _ Nb). cbn [bind]. rewrite (rd_of _ _ _ N). cbn [bind]. rewrite (rd_of _ _ _ Nt). cbn [bind]. rewrite (cp_count _ _ C), Z.eqb_refl. cbn [guard bind].
    eexists. split; [reflexivity|]. split; cbn [meshes containers]; auto. intros b' e H. apply nth_snoc in H as [H|[_ ->]]; [exact (SD _ _ H)|]. cbn [cMesh cKind cData]. exists t. split; auto.
    destruct (SD b d Nb) as (q & Nq & F). rewrite N in Nq. injection Nq as <-. apply (fits_copied T m t) in F; auto. destruct (cData d). exact F.
Qed.
Lemma sound_run T l : forall (w : world T), Sound w -> CallsPre w l -> exists w', wrun w l = Ok w' /\ Sound w'.
Proof.
  unfold wrun. induction l as [|c t IH]; cbn [foldM CallsPre]; intros w S P.
  - eauto.
  - destruct P as [P Q]. destruct (sound_step T w c S P) as (w1 & E & S1). rewrite E. cbn [bind]. apply IH; auto.
Qed.
Lemma reinterpret_ok T (w : world T) b i d m t : nth_error (containers w) b = Some d -> nth_error (meshes w) (cMesh d) = Some m -> nth_error (meshes w) i = Some t -> Copied m t ->
  exists e, wstep w (WReinterpret b i) = Ok (mkW (meshes w) (containers w ++ [e])) /\ cMesh e = i /\ cKind e = cKind d /\ dflt (cData e) = dflt (cData d) /\
    forall j, dataAt (cData e) j = dataAt (cData d) j.
Proof.
  intros Nb N Nt C. cbn [wstep]. rewrite (rd_of _ _ _ Nb). cbn [bind]. rewrite (rd_of _ _ _ N). cbn [bind]. rewrite (rd_of _ _ _ Nt). cbn [bind]. rewrite (cp_count _ _ C), Z.eqb_refl. cbn [guard bind].
  eexists. split; [reflexivity|]. cbn [cMesh cKind cData dflt]. auto.
Qed.
