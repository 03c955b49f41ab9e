From Coq Require Import Reals Lra.
From Verif Require Import Base DataModel DataSpec DataProofs MeshModel MeshSpec MeshBase MeshExec MeshOrbit MeshOpSpec MeshFlip MeshThms MeshHistorySpec MeshHistory MeshDataModel CountSpec
  GeoModel IntrinsicModel IntrinsicSpec FieldModel FieldSpec Intrinsic1 Intrinsic2 Intrinsic3 Intrinsic4 Intrinsic5 Intrinsic6 Intrinsic7 Intrinsic8 Intrinsic9 Field2.
Open Scope R_scope.
Lemma foldM_max {A} (f : R -> A -> res R) (g : A -> R) l : (forall s a, In a l -> f s a = Ok (Rmax s (g a))) ->
  forall s, exists e, foldM f l s = Ok e /\ s <= e /\ (forall a, In a l -> g a <= e) /\ (forall b, s <= b -> (forall a, In a l -> g a <= b) -> e <= b).
Proof.
  induction l as [|a t IH]; intros H s; cbn [foldM]; [exists s; split; auto; split; [lra|]; split; [intros a []|auto]|]. rewrite H by (left; auto). cbn [bind].
  destruct (IH (fun s b Hb => H s b (or_intror Hb)) (Rmax s (g a))) as (e & E & L & U & M). exists e. split; auto. pose proof (Rmax_l s (g a)). pose proof (Rmax_r s (g a)). split; [lra|]. split; [intros b [<-|Hb]; [lra|auto]|].
  intros b Hb HA. apply M; [apply Rmax_lub; auto; apply HA; left; auto|intros c Hc; apply HA; right; auto].
Qed.
Section M.
Context (m : mesh) (V : Valid m).
Let CN := va_cn m V.
Lemma mollify_abs len k : length (dat len) = Z.to_nat (eCap m) -> exists out eps, mollifyIntrinsicAbsolute m len k = Ok out /\ length (dat out) = Z.to_nat (eCap m) /\ 0 <= eps /\ (forall h, liveH m h -> lh out h = lh len h + eps) /\
  (forall h, intH m h -> lh len (nx m (nx m h)) - lh len h - lh len (nx m h) + k <= eps) /\
  (forall b, 0 <= b -> (forall h, intH m h -> lh len (nx m (nx m h)) - lh len h - lh len (nx m h) + k <= b) -> eps <= b).
Proof.
  intros LL. unfold mollifyIntrinsicAbsolute. destruct (els_ok m ECorner V) as (EC & _). rewrite EC. cbn [bind]. rewrite forEach_map. fold (zl m ECorner).
  match goal with |- context [foldM ?b (zl m ECorner) 0] => destruct (foldM_max b (fun h => lh len (nx m (nx m h)) - lh len h - lh len (nx m h) + k) (zl m ECorner)) with (s := 0) as (eps & E & P & U & M) end.
  - intros s h Hh. apply zl_In in Hh; auto. assert (K : intH m h) by exact Hh. pose proof (intH_nx m V h K) as K1. pose proof (intH_nx m V _ K1) as K2.
    assert (G : forall g, liveH m g -> dataAt len (edge g) = Ok (lh len g)). { intros g Lg. rewrite (dataAt_in 0) by (rewrite LL; apply (e_cap m V), (edge_live m V); auto). reflexivity. }
    rewrite (G h) by apply K. cbn [bind]. rewrite next_live by (auto; apply K). cbn [bind]. rewrite G by apply K1. cbn [bind]. rewrite next_live by (auto; apply K1). cbn [bind]. rewrite G by apply K2. reflexivity.
  - rewrite E. cbn [bind]. destruct (els_ok m EEdge V) as (EE & _). rewrite EE. cbn [bind]. rewrite forEach_map. fold (zl m EEdge).
    destruct (acc_ok (fun d e => addAt d e eps) (fun e => e) (fun _ => eps) (zl m EEdge) (Z.to_nat (eCap m))) with (d := len) as (out & F & LO & HO); auto.
    { intros e He. apply zl_In in He; auto. apply (e_cap m V); auto. }
    exists out, eps. split; auto. split; auto. split; auto. split; [|split].
    + intros h Lh. unfold lh. rewrite HO by (apply (edge_live m V) in Lh; apply (e_cap m V) in Lh; lia). f_equal. pose proof (edge_live m V h Lh) as Le. apply (zl_In m V EEdge) in Le.
      rewrite <- (Rsum_if (fun e => (e =? edge h)%Z)). rewrite (Rsum_ext _ (fun e => if (edge h =? e)%Z then eps else 0)) by (intros e _; rewrite Z.eqb_sym; reflexivity). apply (Rsum_delta Z.eqb zE (fun _ => eps)); auto. apply zl_NoDup; auto.
    + intros h K. apply U. apply zl_In; auto.
    + intros b Pb Hb. apply M; auto. intros h Hh. apply Hb. apply zl_In in Hh; auto.
Qed.
Lemma mollify_rel len k : length (dat len) = Z.to_nat (eCap m) -> exists es, elements m EEdge = Ok es /\ mollifyIntrinsic m len k = mollifyIntrinsicAbsolute m len (total (valAt len) es / IZR (nEdges m) * k).
Proof.
  intros LL. destruct (els_ok m EEdge V) as (EE & _). exists (els m EEdge). split; auto. unfold mollifyIntrinsic. rewrite EE. cbn [bind]. rewrite forEach_map. fold (zl m EEdge).
  rewrite (foldM_add _ (valAt len)). 2: { intros t e He. apply zl_In in He; auto. rewrite (dataAt_in 0) by (rewrite LL; apply (e_cap m V); auto). reflexivity. }
  cbn [bind]. cbv zeta. rewrite Rplus_0_l, (totalZ m EEdge _ _ EE). reflexivity.
Qed.
End M.
Lemma mollify_absolute : forall m len margin, Valid m -> length (dat len) = Z.to_nat (eCap m) ->
  exists out eps, mollifyIntrinsicAbsolute m len margin = Ok out /\ 0 <= eps /\ (forall h, liveH m h -> lh out h = lh len h + eps) /\
    (forall h, liveH m h -> ~ ext m h -> lh out (nx m (nx m h)) + margin <= lh out h + lh out (nx m h)) /\
    (forall eps' other, 0 <= eps' -> (forall h, liveH m h -> lh other h = lh len h + eps') -> (forall h, liveH m h -> ~ ext m h -> lh other (nx m (nx m h)) + margin <= lh other h + lh other (nx m h)) -> eps <= eps') /\
    ((forall h, liveH m h -> 0 < lh len h) -> 0 < margin -> triangular m -> Metric m out).
Proof.
  intros m len k V LL. pose proof (va_cn m V) as CN. destruct (mollify_abs m V len k LL) as (out & eps & E & LO & P & HO & U & M). exists out, eps. split; auto. split; auto. split; auto.
  assert (T : forall h, liveH m h -> ~ ext m h -> lh out (nx m (nx m h)) + k <= lh out h + lh out (nx m h)).
  { intros h Lh X. assert (K : intH m h) by (split; auto). pose proof (intH_nx m V h K) as K1. pose proof (intH_nx m V _ K1) as K2. rewrite !HO by (apply K || apply K1 || apply K2). pose proof (U h K). lra. }
  split; auto. split.
  - intros e' o Pe Ho To. apply M; auto. intros h K. pose proof (intH_nx m V h K) as K1. pose proof (intH_nx m V _ K1) as K2. pose proof (To h (proj1 K) (proj2 K)) as Q. rewrite !Ho in Q by (apply K || apply K1 || apply K2). lra.
  - intros PL Pk TR. constructor; auto.
    + intros h Lh. rewrite HO by auto. pose proof (PL h Lh). lra.
    + intros h Lh X. assert (K : intH m h) by (split; auto). pose proof (intH_nx m V h K) as K1. pose proof (intH_nx m V _ K1) as K2. destruct (three m V TR h K) as (E3 & _). pose proof (T (nx m h) (proj1 K1) (proj2 K1)) as Q. rewrite E3 in Q. lra.
Qed.
Lemma mollify_relative : forall m len factor, Valid m -> length (dat len) = Z.to_nat (eCap m) ->
  exists es out, elements m EEdge = Ok es /\ mollifyIntrinsic m len factor = Ok out /\ mollifyIntrinsicAbsolute m len (factor * (total (valAt len) es / IZR (nEdges m))) = Ok out /\
    ((forall h, liveH m h -> 0 < lh len h) -> 0 < factor -> triangular m -> Metric m out).
Proof.
  intros m len k V LL. destruct (mollify_rel m V len k LL) as (es & EE & E). set (mean := total (valAt len) es / IZR (nEdges m)) in *. rewrite (Rmult_comm mean k) in E. destruct (mollify_absolute m len (k * mean) V LL) as (out & eps & EO & P & HO & _ & _ & MM). exists es, out. split; auto. split; [congruence|]. split; auto.
  intros PL Pk TR. destruct (els m EEdge) as [|e0 t] eqn:EL.
  - assert (NH : forall h, ~ liveH m h). { intros h Lh. apply (edge_live m V) in Lh. apply (zl_In m V EEdge) in Lh. unfold zl in Lh. rewrite EL in Lh. destruct Lh. }
    constructor; [|intros h Lh; exfalso; apply (NH h Lh)|intros h Lh; exfalso; apply (NH h Lh)]. destruct (mollify_abs m V len (k * mean) LL) as (o & e & Eo & Lo & _). congruence.
  - apply MM; auto. apply Rmult_lt_0_compat; auto. unfold mean. rewrite (totalZ m EEdge _ _ EE). assert (PE : forall e, In e (zl m EEdge) -> 0 < valAt len e). { intros e He. apply zl_In in He; auto. pose proof (PL (eHe e) He) as Q. unfold lh in Q. rewrite edge_eHe in Q. auto. }
    apply Rdiv_lt_0_compat; [apply Rsum_pos; auto; unfold zl; rewrite EL; discriminate|]. change (nEdges m) with (nElements m EEdge). rewrite <- (zl_len m V EEdge). unfold zl. rewrite EL. apply lt_0_INR. cbn. lia.
Qed.
