From Coq Require Import Reals Lra Permutation.
From Verif Require Import Base DataModel DataSpec DataProofs MeshModel MeshSpec MeshBase MeshExec MeshOrbit MeshOpSpec MeshFlip MeshThms MeshSplit MeshHistorySpec MeshHistory MeshDataModel CollapseProofs CountSpec
  MatrixModel MatrixSpec MatrixProofs GeoModel IntrinsicModel IntrinsicSpec Intrinsic1 Intrinsic2 Intrinsic3 Intrinsic4 Intrinsic5.
Open Scope R_scope.

(** ** indices *)
Lemma place_nth e l : In e l -> (place e l < length l)%nat /\ nth_error l (place e l) = Some e.
Proof.
  induction l as [|a t IH]; intros I; [contradiction|]. cbn. destruct (Nat.eqb_spec a e) as [->|N]; [split; [lia|reflexivity]|]. destruct I as [->|I]; [congruence|]. destruct (IH I). split; [lia|]. auto.
Qed.
Lemma place_inj e e' l : In e l -> In e' l -> place e l = place e' l -> e = e'.
Proof. intros A B E. apply place_nth in A as [_ A]. apply place_nth in B as [_ B]. congruence. Qed.
Lemma place_at l : NoDup l -> forall i e, nth_error l i = Some e -> place e l = i.
Proof.
  induction l as [|a t IH]; intros N i e H; [destruct i; discriminate|]. inversion N as [|? ? N1 N2]; subst. cbn. destruct i as [|i]; cbn in H; [injection H as ->; rewrite Nat.eqb_refl; auto|].
  destruct (Nat.eqb_spec a e) as [->|]; [exfalso; apply N1; eapply nth_error_In; eauto|]. f_equal. auto.
Qed.
Definition good (k : ekind) : Prop := k = EVertex \/ k = EEdge \/ k = EFace.
Lemma foldM_gather {A B} (body : list B -> A -> res (list B)) (part : A -> list B) l : (forall acc a, In a l -> body acc a = Ok (acc ++ part a)) -> forall acc, foldM body l acc = Ok (acc ++ flat_map part l).
Proof.
  induction l as [|a t IH]; intros H acc; cbn [foldM flat_map]; [rewrite app_nil_r; auto|]. rewrite H by (left; auto). cbn [bind]. rewrite IH by (intros; apply H; right; auto). rewrite <- app_assoc. reflexivity.
Qed.
Lemma Rsum_flat_map {A B} (part : A -> list B) (g : B -> R) l : Rsum g (flat_map part l) = Rsum (fun a => Rsum g (part a)) l.
Proof. induction l as [|a t IH]; cbn [flat_map]; auto. rewrite Rsum_app, Rsum_cons, IH. reflexivity. Qed.
Section M.
Context (m : mesh) (V : Valid m).
Let CN := va_cn m V.
Lemma live_cap k e : good k -> liveE m k e -> (0 <= e < Z.of_nat (Z.to_nat (capacity m k)))%Z.
Proof.
  intros [->|[->| ->]] K; cbn [liveE capacity] in *; [apply (v_cap m V); auto| |apply (f_cap m V); auto].
  pose proof (va_st m V) as S. pose proof (st_he _ S). pose proof (st_edge _ S) as [S1 S2]. destruct K as [K _]. unfold eHe in K. lia.
Qed.
Lemma index_els k e : indexOf m k e = place (Z.to_nat e) (els m k).
Proof. unfold indexOf. destruct (els_ok m k V) as (-> & _). reflexivity. Qed.
Lemma index_lt k e : liveE m k e -> (indexOf m k e < Z.to_nat (nElements m k))%nat.
Proof.
  intros K. rewrite index_els. destruct (els_ok m k V) as (_ & _ & C & I). apply zl_In in K as K'; auto. assert (In (Z.to_nat e) (els m k)) by (apply I; rewrite Z2Nat.id; auto; apply liveE_nonneg in K; auto).
  pose proof (place_nth _ _ H). lia.
Qed.
Lemma index_inj k e e' : liveE m k e -> liveE m k e' -> indexOf m k e = indexOf m k e' -> e = e'.
Proof.
  intros K K' E. rewrite !index_els in E. destruct (els_ok m k V) as (_ & _ & C & I). pose proof (liveE_nonneg m k e K). pose proof (liveE_nonneg m k e' K').
  apply place_inj in E; [lia|apply I; rewrite Z2Nat.id; auto|apply I; rewrite Z2Nat.id; auto].
Qed.
Lemma indices_ok k : good k -> exists d, indicesOf m k = Ok d /\ length (dat d) = Z.to_nat (capacity m k) /\ forall e, liveE m k e -> dataAt d e = Ok (indexOf m k e) /\ at_ 0%nat d e = indexOf m k e.
Proof.
  intros G. unfold indicesOf. destruct (els_ok m k V) as (E & N & C & I). rewrite E. cbn [bind]. destruct (DataProofs.indices_ok (Z.to_nat (capacity m k)) (els m k) N) as (d & D & LD & H).
  - intros e He. apply I in He. pose proof (live_cap k _ G He). lia.
  - exists d. split; auto. split; auto. intros e K. pose proof (live_cap k e G K) as B. assert (D1 : dataAt d e = Ok (indexOf m k e)).
    + unfold dataAt. rewrite (proj2 (Z.ltb_ge _ _)) by lia. rewrite index_els. apply H. apply place_nth. apply I. rewrite Z2Nat.id by lia. auto.
    + split; auto. rewrite (dataAt_in 0%nat) in D1 by (rewrite LD; auto). congruence.
Qed.
(** ** matrices of element triplets *)
Definition ztrip (T : Type) := (Z * Z * T)%type.
Definition toTrip {T} (rk ck : ekind) (t : ztrip T) : nat * nat * T := (indexOf m rk (fst (fst t)), indexOf m ck (snd (fst t)), snd t).
Lemma zsparse {T} (add : T -> T -> T) (zero : T) (phi : T -> R) (Hadd : forall a b, phi (add a b) = phi a + phi b) (Hz : phi zero = 0) rk ck (zt : list (ztrip T)) :
  (forall t, In t zt -> liveE m rk (fst (fst t)) /\ liveE m ck (snd (fst t))) ->
  exists M, fromTriplets add (Z.to_nat (nElements m rk)) (Z.to_nat (nElements m ck)) (map (toTrip rk ck) zt) = Ok M /\ rows M = Z.to_nat (nElements m rk) /\ cols M = Z.to_nat (nElements m ck) /\
    (forall a b, liveE m rk a -> liveE m ck b -> phi (entryAt zero m rk ck M a b) = Rsum (fun t => if ((fst (fst t) =? a) && (snd (fst t) =? b))%Z then phi (snd t) else 0) zt).
Proof.
  intros H. destruct (sparse_ok add zero phi Hadd Hz (Z.to_nat (nElements m rk)) (Z.to_nat (nElements m ck)) (map (toTrip rk ck) zt)) as (M & E & R & C & S).
  - intros t I. apply in_map_iff in I as (z & <- & I). cbn. destruct (H z I). split; apply index_lt; auto.
  - exists M. split; auto. split; auto. split; auto. intros a b La Lb. unfold entryAt. rewrite S by (apply index_lt; auto). rewrite <- Rsum_if, Rsum_map. apply Rsum_ext. intros t I. destruct (H t I) as [A B]. unfold hits, toTrip. cbn [fst snd].
    replace ((indexOf m rk (fst (fst t)) =? indexOf m rk a) && (indexOf m ck (snd (fst t)) =? indexOf m ck b))%nat with ((fst (fst t) =? a) && (snd (fst t) =? b))%Z; auto.
    f_equal.
    + destruct (Z.eqb_spec (fst (fst t)) a) as [->|Q]; [rewrite Nat.eqb_refl; auto|]. symmetry. apply Nat.eqb_neq. intros K. apply Q. apply (index_inj rk); auto.
    + destruct (Z.eqb_spec (snd (fst t)) b) as [->|Q]; [rewrite Nat.eqb_refl; auto|]. symmetry. apply Nat.eqb_neq. intros K. apply Q. apply (index_inj ck); auto.
Qed.
(** the action of such a matrix *)
Lemma zaction rk ck (zt : list (ztrip R)) (phi : Z -> Z -> R) (x : Z -> R) a :
  (forall t, In t zt -> liveE m rk (fst (fst t)) /\ liveE m ck (snd (fst t))) ->
  (forall a b, liveE m rk a -> liveE m ck b -> phi a b = Rsum (fun t => if ((fst (fst t) =? a) && (snd (fst t) =? b))%Z then snd t else 0) zt) -> liveE m rk a ->
  Rsum (fun b => phi a b * x b) (zl m ck) = Rsum (fun t => if (fst (fst t) =? a)%Z then snd t * x (snd (fst t)) else 0) zt.
Proof.
  intros H P La. rewrite (Rsum_ext _ (fun b => Rsum (fun t : ztrip R => x b * (if ((fst (fst t) =? a) && (snd (fst t) =? b))%Z then snd t else 0)) zt)).
  - rewrite Rsum_swap. apply Rsum_ext. intros t I. destruct (H t I) as [A B]. destruct (fst (fst t) =? a)%Z; cbn [andb]; [|apply Rsum_zero; intros; ring].
    rewrite (Rsum_ext _ (fun b => if (snd (fst t) =? b)%Z then snd t * x b else 0)) by (intros b _; destruct (snd (fst t) =? b)%Z; ring).
    rewrite (Rsum_delta Z.eqb zE (fun b => snd t * x b)); auto; [apply zl_NoDup; auto|apply zl_In; auto].
  - intros b Hb. apply zl_In in Hb; auto. rewrite P by auto. rewrite Rmult_comm, <- Rsum_scal. reflexivity.
Qed.
Lemma zl_tail e : liveE m EEdge e -> liveH m (eHe e) /\ tailOf m (eHe e) = Ok (ve m (eHe e)) /\ headOf m (eHe e) = Ok (ve m (tw (eHe e))) /\ liveV m (ve m (eHe e)) /\ liveV m (ve m (tw (eHe e))).
Proof.
  intros K. cbn [liveE] in K. split; auto. pose proof (cn_nx _ CN _ K) as K1. unfold tailOf, headOf. rewrite vertexOf_ok by (destruct (liveH_bnd m V _ K) as (_ & _ & ? & _); auto). split; auto.
  rewrite next_live by auto. cbn [bind]. rewrite vertexOf_ok by (destruct (liveH_bnd m V _ K1) as (_ & _ & ? & _); auto). change (getZ (heVertex m) (nx m (eHe e))) with (ve m (nx m (eHe e))).
  assert (Q : ve m (nx m (eHe e)) = ve m (tw (eHe e))) by (apply (cn_vnx _ CN); auto). rewrite Q. split; auto. split; [apply (cn_ve _ CN); auto|]. rewrite <- Q. apply (cn_ve _ CN). auto.
Qed.
End M.
