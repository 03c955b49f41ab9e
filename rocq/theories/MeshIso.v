(** Renaming the elements of a mesh keeps its connectivity valid *)
From Verif Require Import Base MeshModel MeshSpec MeshBase MeshExec.
Open Scope Z_scope.

(** m' is m with halfedge h renamed pH h, vertex v renamed pV v and face (or loop) f renamed pF f *)
Record Iso (m m' : mesh) (pH qH pV qV pF qF : Z -> Z) : Prop := {
  is_pH : forall h, liveH m h -> liveH m' (pH h) /\ qH (pH h) = h;
  is_qH : forall h, liveH m' h -> liveH m (qH h) /\ pH (qH h) = h;
  is_pV : forall v, liveV m v -> liveV m' (pV v) /\ qV (pV v) = v;
  is_qV : forall v, liveV m' v -> liveV m (qV v) /\ pV (qV v) = v;
  is_pF : forall f, liveF m f -> liveF m' (pF f) /\ qF (pF f) = f;
  is_qF : forall f, liveF m' f -> liveF m (qF f) /\ pF (qF f) = f;
  is_pL : forall f, liveL m f -> liveL m' (pF f) /\ qF (pF f) = f;
  is_qL : forall f, liveL m' f -> liveL m (qF f) /\ pF (qF f) = f;
  is_tw : forall h, liveH m h -> tw (pH h) = pH (tw h);
  is_nx : forall h, liveH m h -> nx m' (pH h) = pH (nx m h);
  is_ve : forall h, liveH m h -> ve m' (pH h) = pV (ve m h);
  is_fa : forall h, liveH m h -> fa m' (pH h) = pF (fa m h) }.

Section Iso.
Context (m m' : mesh) (pH qH pV qV pF qF : Z -> Z).
Context (ST : Stored m) (ST' : Stored m') (CN : Connected m) (I : Iso m m' pH qH pV qV pF qF).

Lemma iso_pFL f : liveFL m f -> liveFL m' (pF f) /\ qF (pF f) = f.
Proof. intros [K|K]; [apply (is_pF _ _ _ _ _ _ _ _ I) in K|apply (is_pL _ _ _ _ _ _ _ _ I) in K]; destruct K; split; auto; [left|right]; auto. Qed.
Lemma iso_qFL f : liveFL m' f -> liveFL m (qF f) /\ pF (qF f) = f.
Proof. intros [K|K]; [apply (is_qF _ _ _ _ _ _ _ _ I) in K|apply (is_qL _ _ _ _ _ _ _ _ I) in K]; destruct K; split; auto; [left|right]; auto. Qed.
Lemma iso_ext h : liveH m h -> (ext m' (pH h) <-> ext m h).
Proof.
  intros Hh. unfold ext. rewrite (is_fa _ _ _ _ _ _ _ _ I) by auto. destruct (cn_fa _ CN _ Hh) as [K|K].
  - destruct (is_pF _ _ _ _ _ _ _ _ I _ K) as [[K1 _] _]. destruct K. lia.
  - destruct (is_pL _ _ _ _ _ _ _ _ I _ K) as [[K1 _] _]. destruct K, ST, ST'. lia.
Qed.
Lemma iso_reach (f f' : Z -> Z) a b : (forall h, liveH m h -> liveH m (f h)) -> (forall h, liveH m h -> f' (pH h) = pH (f h)) ->
  liveH m a -> reach f a b -> reach f' (pH a) (pH b).
Proof.
  intros Hf E La (n & <-). exists n. assert (Nat.iter n f' (pH a) = pH (Nat.iter n f a) /\ liveH m (Nat.iter n f a)) as [K _]; auto.
  induction n as [|n [IH1 IH2]]; simpl; auto. rewrite IH1. auto.
Qed.

Lemma iso_connected :
  (forall v, liveV m v -> exists h, liveH m h /\ vh m' (pV v) = pH h /\ ve m h = v /\ (h = vh m v \/ forall k, liveH m k -> ve m k = v -> ~ ext m (tw k))) ->
  (forall f, liveFL m f -> liveH m (qH (fh m' (pF f))) /\ pH (qH (fh m' (pF f))) = fh m' (pF f) /\ fa m (qH (fh m' (pF f))) = f) ->
  (forall h, liveH m h -> ext m h -> pH h mod 2 <> 0) -> Connected m'.
Proof.
  intros HV HF HE. pose proof (is_pH _ _ _ _ _ _ _ _ I) as PH. pose proof (is_qH _ _ _ _ _ _ _ _ I) as QH.
  pose proof (is_pV _ _ _ _ _ _ _ _ I) as PV. pose proof (is_qV _ _ _ _ _ _ _ _ I) as QV.
  pose proof (is_tw _ _ _ _ _ _ _ _ I) as T. pose proof (is_nx _ _ _ _ _ _ _ _ I) as N.
  pose proof (is_ve _ _ _ _ _ _ _ _ I) as E. pose proof (is_fa _ _ _ _ _ _ _ _ I) as F.
  assert (X : forall h', liveH m' h' -> exists h, liveH m h /\ h' = pH h) by (intros h' K; exists (qH h'); destruct (QH h' K); auto).
  assert (XV : forall v', liveV m' v' -> exists v, liveV m v /\ v' = pV v) by (intros v' K; exists (qV v'); destruct (QV v' K); auto).
  assert (XF : forall f', liveFL m' f' -> exists f, liveFL m f /\ f' = pF f) by (intros f' K; exists (qF f'); destruct (iso_qFL f' K); auto).
  assert (JH : forall a b, liveH m a -> liveH m b -> pH a = pH b -> a = b) by (intros a b Ha Hb K; rewrite <- (proj2 (PH a Ha)), <- (proj2 (PH b Hb)), K; auto).
  assert (JV : forall a b, liveV m a -> liveV m b -> pV a = pV b -> a = b) by (intros a b Ha Hb K; rewrite <- (proj2 (PV a Ha)), <- (proj2 (PV b Hb)), K; auto).
  assert (JF : forall a b, liveFL m a -> liveFL m b -> pF a = pF b -> a = b) by (intros a b Ha Hb K; rewrite <- (proj2 (iso_pFL a Ha)), <- (proj2 (iso_pFL b Hb)), K; auto).
  split.
  - intros h' K. destruct (X h' K) as (h & L & ->). rewrite T by auto. apply PH. apply CN; auto.
  - intros h' K. destruct (X h' K) as (h & L & ->). rewrite N by auto. apply PH. apply CN; auto.
  - intros a' b' Ka Kb Eq. destruct (X a' Ka) as (a & La & ->). destruct (X b' Kb) as (b & Lb & ->). rewrite !N in Eq by auto. f_equal.
    apply JH in Eq; [apply (cn_inj _ CN); auto|apply (cn_nx _ CN); auto..].
  - intros h' K. destruct (X h' K) as (h & L & ->). rewrite E by auto. apply PV. apply CN; auto.
  - intros h' K. destruct (X h' K) as (h & L & ->). rewrite F by auto. apply iso_pFL. apply CN; auto.
  - intros h' K. destruct (X h' K) as (h & L & ->). rewrite N, T by auto. assert (liveH m (tw h)) by (apply CN; auto). assert (liveH m (nx m h)) by (apply CN; auto).
    rewrite !E by auto. f_equal. apply (cn_vnx _ CN); auto.
  - intros h' K. destruct (X h' K) as (h & L & ->). rewrite N by auto. assert (liveH m (nx m h)) by (apply CN; auto). rewrite !F by auto. f_equal. apply (cn_fnx _ CN); auto.
  - intros v' K. destruct (XV v' K) as (v & L & ->). destruct (HV v L) as (h & K1 & -> & <- & _). split; [apply PH; auto|]. rewrite E by auto. congruence.
  - intros f' K. destruct (XF f' K) as (f & L & ->). destruct (HF f L) as (K1 & K2 & K3). rewrite <- K2. split; [apply PH; auto|]. rewrite F by auto. congruence.
  - intros a' b' Ka Kb Eq. destruct (X a' Ka) as (a & La & ->). destruct (X b' Kb) as (b & Lb & ->). rewrite !F in Eq by auto.
    apply JF in Eq; [|apply (cn_fa _ CN); auto..]. apply iso_reach with (nx m); auto; apply CN; auto.
  - intros a' b' Ka Kb Eq. destruct (X a' Ka) as (a & La & ->). destruct (X b' Kb) as (b & Lb & ->). rewrite !E in Eq by auto.
    apply JV in Eq; [|apply (cn_ve _ CN); auto..]. apply iso_reach with (ro m); auto; try (apply CN; auto).
    + intros h Hh. apply CN, CN; auto.
    + intros h Hh. unfold ro. rewrite T by auto. apply N. apply CN; auto.
  - intros h' K M. destruct (X h' K) as (h & L & ->). rewrite iso_ext by auto. intros Ex. apply (HE h L Ex). exact M.
  - intros h' K Ex. destruct (X h' K) as (h & L & ->). rewrite T in Ex by auto. rewrite iso_ext in Ex by (apply CN; auto). rewrite E by auto.
    destruct (HV (ve m h) (cn_ve _ CN _ L)) as (k & K1 & -> & K2 & [->|K3]); [f_equal; apply (cn_vbd _ CN); auto|]. exfalso. apply (K3 h); auto.
Qed.
End Iso.
