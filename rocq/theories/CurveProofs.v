(** Proofs about marchingTriangles: from the faces to the curves *)
From Verif Require Import Base MeshModel MeshSpec MeshOpSpec MeshBase PointModel PointSpec PointProofs GeoModel GeoSpec BaryModel BarySpec BaryProofs MarchModel MarchSpec MarchProofs IsoProofs.
From Coq Require Import Reals Lra Permutation.
Open Scope Z_scope.

Lemma f2_impl {A B} (r r' : A -> B -> Prop) l l' : (forall a b, r a b -> r' a b) -> Forall2 r l l' -> Forall2 r' l l'.
Proof. intros H X. induction X; constructor; auto. Qed.
Lemma f2_in_l {A B} (r : A -> B -> Prop) l l' a : Forall2 r l l' -> In a l -> exists b, In b l' /\ r a b.
Proof. induction 1 as [|x y l l' R F IH]; intros H; [destruct H|]. destruct H as [->|H]; [exists y; split; [left|]; auto|]. destruct (IH H) as (b & X & Y). exists b. split; [right|]; auto. Qed.
Lemma f2_in_r {A B} (r : A -> B -> Prop) l l' b : Forall2 r l l' -> In b l' -> exists a, In a l /\ r a b.
Proof. induction 1 as [|x y l l' R F IH]; intros H; [destruct H|]. destruct H as [->|H]; [exists x; split; [left|]; auto|]. destruct (IH H) as (a & X & Y). exists a. split; [right|]; auto. Qed.
Section Assemble.
Context (nodes : list point) (ND : NoDup nodes).
Definition at_ (i : nat) : point := nth i nodes (PVertex 0).
Definition sp (s : seg) : point * point := (at_ (fst s), at_ (snd s)).
Lemma nodes_distinct i j a b : nth_error nodes i = Some a -> nth_error nodes j = Some b -> (pointEqb a b = true <-> i = j).
Proof.
  intros A B. rewrite pointEqb_ok. split; [|congruence]. intros ->. apply (proj1 (NoDup_nth_error nodes) ND); [apply nth_error_Some|]; congruence.
Qed.
Lemma rd_at i : (i < length nodes)%nat -> rd nodes i = Ok (at_ i).
Proof. intros H. unfold rd, at_. destruct (nth_error nodes i) eqn:E; [|apply nth_error_None in E; lia]. f_equal. symmetry. apply nth_error_nth. exact E. Qed.
Lemma at_inj i j : (i < length nodes)%nat -> (j < length nodes)%nat -> at_ i = at_ j -> i = j.
Proof. intros A B E. apply (proj1 (NoDup_nth nodes (PVertex 0)) ND); auto. Qed.

Lemma pairs_app l (z : point) : l <> [] -> forall a, final l = Some a -> pairs (l ++ [z]) = pairs l ++ [(a, z)].
Proof.
  induction l as [|b l IH]; intros N a H; [congruence|]. destruct l as [|c l].
  - cbn in *. injection H as <-. reflexivity.
  - cbn [app]. change (pairs (b :: c :: l ++ [z])) with ((b, c) :: pairs ((c :: l) ++ [z])). rewrite (IH ltac:(discriminate) a); [reflexivity|].
    rewrite <- H. symmetry. exact (final_app [b] c l).
Qed.
Lemma curveNodes_ok (c : list seg) : c <> [] -> linked (fun s t : seg => snd s = fst t) c -> Forall (inRange nodes) c ->
  exists pts, curveNodes nodes c = Ok pts /\ pairs pts = map sp c /\ first pts = option_map (fun s : seg => at_ (fst s)) (first c) /\ final pts = option_map (fun s : seg => at_ (snd s)) (final c).
Proof.
  intros N L F. unfold curveNodes.
  assert (M : forall l : list seg, Forall (inRange nodes) l -> mapM (fun s : seg => rd nodes (fst s)) l = Ok (map (fun s : seg => at_ (fst s)) l)).
  { induction l as [|s l IH]; intros X; [reflexivity|]. inversion X as [|? ? X1 X2]; subst. cbn [mapM map]. rewrite rd_at by apply X1. cbn [bind]. rewrite IH by auto. reflexivity. }
  rewrite M by auto. cbn [bind]. destruct (rev c) as [|s r] eqn:E; [exfalso; apply N; rewrite <- (rev_involutive c), E; reflexivity|].
  assert (Ec : c = rev r ++ [s]) by (rewrite <- (rev_involutive c), E; reflexivity).
  assert (Fs : inRange nodes s) by (rewrite Ec in F; apply Forall_app in F as (_ & F); inversion F; auto).
  rewrite rd_at by apply Fs. cbn [bind]. eexists. split; [reflexivity|]. split; [|split].
  - assert (Fin : final c = Some s) by (unfold final; rewrite E; reflexivity). clear E r Ec M. assert (E : final c = Some s -> pairs (map (fun s : seg => at_ (fst s)) c ++ [at_ (snd s)]) = map sp c).
    { clear Fs N F Fin. induction c as [|a c IH]; intros E; [discriminate|]. destruct c as [|b c].
      - injection E as ->. reflexivity.
      - destruct L as (L1 & L2). cbn [map app]. change (pairs (at_ (fst a) :: at_ (fst b) :: map (fun s : seg => at_ (fst s)) c ++ [at_ (snd s)])) with ((at_ (fst a), at_ (fst b)) :: pairs (map (fun s : seg => at_ (fst s)) (b :: c) ++ [at_ (snd s)])).
        rewrite IH; auto; [|rewrite <- E; symmetry; exact (final_app [a] b c)]. unfold sp at 2. rewrite L1. reflexivity. }
    exact (E Fin).
  - destruct c; [congruence|reflexivity].
  - unfold final at 1. rewrite rev_app_distr. cbn. unfold final. rewrite E. reflexivity.
Qed.
End Assemble.

Section Curves.
Context (m : mesh) (V : Valid m) (T : triangular m) (len u : Z -> R) (iso : R).
Hypothesis NV : forall v, liveV m v -> u v <> iso.
Hypothesis ES : edgeSimple m.
Hypothesis LAY : forall f, liveF m f -> exists P, lengths2 m len P f /\ ccw m P f.
Let CN := va_cn m V.

Lemma faceIter_ok : NoDup (faceIter m) /\ forall f, In f (faceIter m) <-> liveF m f.
Proof.
  unfold faceIter. split; [apply NoDup_filter, zseq_NoDup|]. intros f. rewrite filter_In, zseq_In, negb_true_iff, Z.eqb_neq. unfold liveF, fh, INVALID. tauto.
Qed.
Definition seg_at (nodes : list point) (s : seg) (pq : point * point) : Prop := nth_error nodes (fst s) = Some (fst pq) /\ nth_error nodes (snd s) = Some (snd pq).
Lemma seg_at_app nodes x s pq : seg_at nodes s pq -> seg_at (nodes ++ x) s pq.
Proof. intros (A & B). split; rewrite nth_error_app1; auto; apply nth_error_Some; congruence. Qed.
Lemma fold_march_ok fs nodes edges segs cf : NoDup fs -> (forall f, In f fs -> liveF m f) -> (forall f, In f fs -> ~ In f cf) -> NoDup cf -> NoDup nodes ->
  Forall2 (fun f pq => isoSegment m u iso f (fst pq) (snd pq)) cf segs -> Forall2 (seg_at nodes) edges segs ->
  exists nodes' edges' segs' cf', foldM (marchFace m len u iso) fs (nodes, edges) = Ok (nodes', edges') /\ NoDup nodes' /\ NoDup cf' /\
    Forall2 (fun f pq => isoSegment m u iso f (fst pq) (snd pq)) cf' segs' /\ Forall2 (seg_at nodes') edges' segs' /\
    forall f, In f cf' <-> In f cf \/ In f fs /\ crossed m u iso f.
Proof.
  revert nodes edges segs cf. induction fs as [|f fs IH]; intros nodes edges segs cf NF LF D NC ND S A.
  - exists nodes, edges, segs, cf. cbn [foldM]. repeat (split; auto). intros [?|([] & _)]; auto.
  - inversion NF as [|? ? N1 N2]; subst. assert (F : liveF m f) by (apply LF; left; auto). destruct (LAY f F) as (P & LP).
    cbn [foldM]. destruct (marchFace_ok m V T len u iso NV ES f nodes edges P F LP ND) as [(C & ->)|(C & x & i & j & p & q & -> & ND' & I & J & IS)]; cbn [bind].
    + destruct (IH nodes edges segs cf N2) as (nodes' & edges' & segs' & cf' & E & A1 & A2 & A3 & A4 & A5); auto.
      { intros g Hg. apply LF. right. auto. } { intros g Hg. apply D. right. auto. }
      exists nodes', edges', segs', cf'. repeat (split; auto).
      * intros H. apply A5 in H as [H|(H & X)]; auto. right. split; auto. right. auto.
      * intros H. apply A5. destruct H as [H|([<-|H] & X)]; auto. contradiction.
    + destruct (IH (nodes ++ x) (edges ++ [(i, j)]) (segs ++ [(p, q)]) (cf ++ [f]) N2) as (nodes' & edges' & segs' & cf' & E & A1 & A2 & A3 & A4 & A5); auto.
      { intros g Hg. apply LF. right. auto. }
      { intros g Hg X. apply in_app_or in X as [X|[<-|[]]]; [|auto]. apply (D g); auto. right. auto. }
      { apply NoDup_rev in NC. rewrite <- (rev_involutive (cf ++ [f])). apply NoDup_rev. rewrite rev_app_distr. cbn. constructor; auto. intros X. apply in_rev in X. apply (D f); auto. left. auto. }
      { apply Forall2_app; auto. }
      { apply Forall2_app; [|constructor; [|constructor]; split; auto]. eapply f2_impl; [|exact A]. intros. apply seg_at_app. auto. }
      exists nodes', edges', segs', cf'. repeat (split; auto).
      * intros H. apply A5 in H as [H|(H & X)]; [apply in_app_or in H as [H|[<-|[]]]; auto|]; right; (split; [|auto]); [left|right]; auto.
      * intros H. apply A5. destruct H as [H|([<-|H] & X)]; auto; left; apply in_or_app; auto. right. left. auto.
Qed.

Lemma starts_inj f g p q q' : isoSegment m u iso f p q -> isoSegment m u iso g p q' -> f = g.
Proof.
  intros (h & _ & _ & Fh & Rh & (t & -> & _) & _) (h' & _ & _ & Fh' & Rh' & (t' & E & _) & _). injection E as E _.
  destruct (proj1 (edge_eq _ _) E) as [->|X]; [congruence|]. exfalso. unfold rises in *. rewrite X, tw_tw in Rh. lra.
Qed.
Lemma ends_inj f g p p' q : isoSegment m u iso f p q -> isoSegment m u iso g p' q -> f = g.
Proof.
  intros (_ & k & _ & _ & _ & _ & _ & Fk & Rk & (t & -> & _)) (_ & k' & _ & _ & _ & _ & _ & Fk' & Rk' & (t' & E & _)). injection E as E _.
  destruct (proj1 (edge_eq _ _) E) as [->|X]; [congruence|]. exfalso. unfold falls in *. rewrite X, tw_tw in Rk. lra.
Qed.
Lemma segs_nodup cf segs : NoDup cf -> Forall2 (fun f pq => isoSegment m u iso f (fst pq) (snd pq)) cf segs -> NoDup (map fst segs) /\ NoDup (map snd segs).
Proof.
  intros N H. induction H as [|f (p & q) cf segs IS H IH]; [split; constructor|]. inversion N as [|? ? N1 N2]; subst. destruct (IH N2) as (A & B). cbn [map fst snd] in *. split; constructor; auto.
  - intros X. apply in_map_iff in X as ((p' & q') & E & X). cbn in E. subst. destruct (f2_in_r _ _ _ _ H X) as (g & Hg & Ig). cbn in Ig. rewrite (starts_inj _ _ _ _ _ IS Ig) in N1. auto.
  - intros X. apply in_map_iff in X as ((p' & q') & E & X). cbn in E. subst. destruct (f2_in_r _ _ _ _ H X) as (g & Hg & Ig). cbn in Ig. rewrite (ends_inj _ _ _ _ _ IS Ig) in N1. auto.
Qed.
(** along a face, the value rises over the level once, and falls once *)
Lemma rises_once h k : liveH m h -> liveH m k -> ~ ext m h -> fa m k = fa m h -> rises m u iso h -> rises m u iso k -> h = k.
Proof.
  intros L L' E F A B. unfold rises in *. destruct (tri_three m V h k T L E L' F) as [?|[->| ->]]; auto.
  - rewrite (cn_vnx _ CN _ L) in B. lra.
  - assert (L1 := cn_nx _ CN _ L). assert (L2 := cn_nx _ CN _ L1). rewrite <- (cn_vnx _ CN _ L2) in B. destruct (T h L E) as (_ & X & _). rewrite X in B. lra.
Qed.
Lemma falls_once h k : liveH m h -> liveH m k -> ~ ext m h -> fa m k = fa m h -> falls m u iso h -> falls m u iso k -> h = k.
Proof.
  intros L L' E F A B. unfold falls in *. destruct (tri_three m V h k T L E L' F) as [?|[->| ->]]; auto.
  - rewrite (cn_vnx _ CN _ L) in B. lra.
  - assert (L1 := cn_nx _ CN _ L). assert (L2 := cn_nx _ CN _ L1). rewrite <- (cn_vnx _ CN _ L2) in B. destruct (T h L E) as (_ & X & _). rewrite X in B. lra.
Qed.
Lemma rise_crossed h : liveH m h -> rises m u iso h \/ falls m u iso h -> crossed m u iso (fa m h).
Proof.
  intros L H. assert (L1 := cn_nx _ CN _ L). assert (F1 := cn_fnx _ CN _ L). assert (V1 := cn_vnx _ CN _ L). unfold rises, falls in H. rewrite <- V1 in H.
  destruct H; split; [exists h|exists (nx m h)|exists (nx m h)|exists h]; repeat (split; auto); lra.
Qed.
(** the isoline goes on in the next face unless the edge is on the boundary *)
Lemma goes_on f p q : isoSegment m u iso f p q -> onBoundaryEdge m q \/ exists g, liveF m g /\ crossed m u iso g /\ forall p' q', isoSegment m u iso g p' q' -> p' = q.
Proof.
  intros (_ & k & _ & _ & _ & _ & L & Fk & Rk & C). assert (L' := cn_tw _ CN _ L).
  assert (D : ext m (tw k) \/ ~ ext m (tw k)) by (unfold ext; lia). destruct D as [D|D].
  - left. destruct C as (t & -> & _). exists (tw k), t. rewrite tw_edge. auto.
  - right. exists (fa m (tw k)). split; [apply (live_face_of m V); auto|]. assert (R : rises m u iso (tw k)) by (unfold rises, falls in *; rewrite tw_tw; lra). split; [apply rise_crossed; auto|].
    intros p' q' (h & _ & Lh & Fh & Rh & Ch & _). assert (tw k = h) as <- by (apply rises_once; auto).
    rewrite (cr_unique m V u iso NV (tw k) p' L') by (auto; apply (rises_cross m V len u iso NV); auto). rewrite (cr_unique m V u iso NV k q L) by (auto; apply (falls_cross m V len u iso NV); auto).
    unfold cr. rewrite tw_edge. reflexivity.
Qed.
Lemma comes_from f p q : isoSegment m u iso f p q -> onBoundaryEdge m p \/ exists g, liveF m g /\ crossed m u iso g /\ forall p' q', isoSegment m u iso g p' q' -> q' = p.
Proof.
  intros (k & _ & L & Fk & Rk & C & _). assert (L' := cn_tw _ CN _ L).
  assert (D : ext m (tw k) \/ ~ ext m (tw k)) by (unfold ext; lia). destruct D as [D|D].
  - left. destruct C as (t & -> & _). exists (tw k), t. rewrite tw_edge. auto.
  - right. exists (fa m (tw k)). split; [apply (live_face_of m V); auto|]. assert (R : falls m u iso (tw k)) by (unfold rises, falls in *; rewrite tw_tw; lra). split; [apply rise_crossed; auto|].
    intros p' q' (_ & h & _ & _ & _ & _ & Lh & Fh & Rh & Ch). assert (tw k = h) as <- by (apply falls_once; auto).
    rewrite (cr_unique m V u iso NV (tw k) q' L') by (auto; apply (falls_cross m V len u iso NV); auto). rewrite (cr_unique m V u iso NV k p L) by (auto; apply (rises_cross m V len u iso NV); auto).
    unfold cr. rewrite tw_edge. reflexivity.
Qed.

Theorem march_ok : exists curves cf segs, marchingTriangles m len u iso = Ok curves /\
  NoDup cf /\ (forall f, In f cf <-> liveF m f /\ crossed m u iso f) /\
  Forall2 (fun f pq => isoSegment m u iso f (fst pq) (snd pq)) cf segs /\ Permutation (flat_map pairs curves) segs /\
  NoDup (map fst segs) /\ NoDup (map snd segs) /\
  forall c, In c curves -> exists a z, first c = Some a /\ final c = Some z /\ (a = z \/ onBoundaryEdge m a /\ onBoundaryEdge m z).
Proof.
  destruct faceIter_ok as (NI & FI). unfold marchingTriangles.
  destruct (fold_march_ok (faceIter m) [] [] [] [] NI) as (nodes & es & segs & cf & -> & ND & NC & IS & SA & CF); auto; try (constructor; fail). { intros f Hf. apply FI. auto. } cbn [bind].
  assert (CF' : forall f, In f cf <-> liveF m f /\ crossed m u iso f). { intros f. rewrite CF. rewrite FI. cbn [In]. tauto. } clear CF.
  destruct (segs_nodup cf segs NC IS) as (S1 & S2).
  assert (RG : Forall (inRange nodes) es). { apply Forall_forall. intros s Hs. destruct (f2_in_l _ _ _ _ SA Hs) as (pq & _ & (A & B)). split; apply nth_error_Some; congruence. }
  assert (MS : map (sp nodes) es = segs). { clear -SA. induction SA as [|s (p & q) es segs (A & B) H IH]; [reflexivity|]. cbn [map]. f_equal; auto. unfold sp, at_. cbn in *. rewrite (nth_error_nth _ _ _ A), (nth_error_nth _ _ _ B). reflexivity. }
  destruct (getCurveComponents_ok pointEqb nodes (nodes_distinct nodes ND) es RG) as (cs & -> & P & L & M). cbn [bind].
  assert (RC : forall c, In c cs -> Forall (inRange nodes) c).
  { intros c Hc. apply Forall_forall. intros s Hs. apply (proj1 (Forall_forall _ _) RG). apply (Permutation_in _ P). apply in_concat. eauto. }
  assert (MM : exists curves, mapM (curveNodes nodes) cs = Ok curves /\ Forall2 (fun c pts => pairs pts = map (sp nodes) c /\ first pts = option_map (fun s : seg => at_ nodes (fst s)) (first c) /\ final pts = option_map (fun s : seg => at_ nodes (snd s)) (final c)) cs curves).
  { clear -L RC. induction cs as [|c cs IH]; [exists []; split; [reflexivity|constructor]|]. inversion L as [|? ? (N & Lc) L']; subst.
    destruct (curveNodes_ok nodes c N Lc (RC c (or_introl eq_refl))) as (pts & E & X). destruct (IH L') as (curves & E' & X'); [intros; apply RC; right; auto|].
    exists (pts :: curves). cbn [mapM]. rewrite E. cbn [bind]. rewrite E'. split; [reflexivity|constructor; auto]. }
  destruct MM as (curves & -> & R). exists curves, cf, segs. split; [reflexivity|]. split; auto. split; auto. split; auto. split; [|split; [auto|split; [auto|]]].
  - rewrite <- MS. rewrite <- P. clear -R. induction R as [|c pts cs curves (E & _) R IH]; cbn [flat_map concat map]; auto. rewrite map_app, E. apply Permutation_app_head. auto.
  - intros pts Hp. destruct (f2_in_r _ _ _ _ R Hp) as (c & Hc & E1 & E2 & E3). destruct (proj1 (Forall_forall _ _) L c Hc) as (N & Lc).
    assert (Fa : exists a, first c = Some a /\ In a c) by (destruct c as [|a c]; [destruct (N eq_refl)|exists a; split; [|left]; auto]).
    assert (Fz : exists z, final c = Some z /\ In z c). { unfold final. destruct (rev c) as [|z r] eqn:E; [exfalso; apply N; rewrite <- (rev_involutive c), E; reflexivity|]. exists z. split; auto. apply in_rev. rewrite E. left. auto. }
    destruct Fa as (a & Fa & Ia). destruct Fz as (z & Fz & Iz). rewrite Fa in E2. rewrite Fz in E3. cbn [option_map] in E2, E3. do 2 eexists. split; [exact E2|]. split; [exact E3|].
    assert (InE : forall s, In s c -> In s es) by (intros s Hs; apply (Permutation_in _ P); apply in_concat; eauto).
    assert (ND1 : NoDup (map fst es)). { apply (NoDup_map_inv (at_ nodes)). rewrite map_map. rewrite <- MS in S1. rewrite map_map in S1. exact S1. }
    assert (ND2 : NoDup (map snd es)). { apply (NoDup_map_inv (at_ nodes)). rewrite map_map. rewrite <- MS in S2. rewrite map_map in S2. exact S2. }
    assert (SG : forall s, In s es -> exists f, isoSegment m u iso f (at_ nodes (fst s)) (at_ nodes (snd s))).
    { intros s Hs. assert (X : In (sp nodes s) segs) by (rewrite <- MS; apply in_map; auto). destruct (f2_in_r _ _ _ _ IS X) as (f & _ & Y). exists f. exact Y. }
    assert (GS : forall g, liveF m g -> crossed m u iso g -> exists s, In s es /\ isoSegment m u iso g (at_ nodes (fst s)) (at_ nodes (snd s))).
    { intros g Lg Cg. destruct (f2_in_l _ _ _ _ IS (proj2 (CF' g) (conj Lg Cg))) as (pq & Hpq & Y). rewrite <- MS in Hpq. apply in_map_iff in Hpq as (s & <- & Hs). exists s. auto. }
    assert (Rg : forall s, In s es -> inRange nodes s) by (intros s; apply Forall_forall; auto).
    destruct (SG z (InE z Iz)) as (f & Sz). destruct (SG a (InE a Ia)) as (f' & Sa).
    destruct (goes_on _ _ _ Sz) as [Bz|(g & Lg & Cg & G)].
    + destruct (comes_from _ _ _ Sa) as [Ba|(g & Lg & Cg & G)]; [right; auto|]. left.
      destruct (GS g Lg Cg) as (s & Hs & Is). specialize (G _ _ Is). apply (at_inj nodes ND) in G; [|apply Rg; auto|apply Rg; auto].
      assert (X := maximal_back es cs ND1 P L M c a s Hc Fa Hs G). rewrite Fz in X. injection X as ->. rewrite G. reflexivity.
    + left. destruct (GS g Lg Cg) as (s & Hs & Is). specialize (G _ _ Is). apply (at_inj nodes ND) in G; [|apply Rg; auto|apply Rg; auto].
      assert (X := maximal_front es cs ND2 P L M c z s Hc Fz Hs G). rewrite Fa in X. injection X as ->. rewrite G. reflexivity.
Qed.
End Curves.
