From Coq Require Import Reals Lra Permutation.
From Verif Require Import Base DataModel DataSpec DataProofs MeshModel MeshSpec MeshBase MeshExec MeshOrbit MeshOpSpec MeshFlip MeshThms MeshSplit MeshHistorySpec MeshHistory MeshDataModel CollapseProofs CountSpec
  MatrixModel MatrixSpec MatrixProofs GeoModel IntrinsicModel IntrinsicSpec Intrinsic1 Intrinsic2 Intrinsic3 Intrinsic4 Intrinsic5 Intrinsic7 Intrinsic8 Intrinsic9.
Open Scope R_scope.

(** ** plane vectors *)
Lemma V2_eq (u v : V2) : px u = px v -> py u = py v -> u = v. Proof. destruct u, v. cbn. intros -> ->. reflexivity. Qed.
Lemma layout_ok a b c : tri a b c -> let '(u, v, w) := layoutFace a b c (heron a b c) in
  norm2_2 u = a * a /\ norm2_2 v = b * b /\ norm2_2 w = c * c /\ add2 (add2 u v) w = mk2 0 0 /\ cross2 u v = 2 * heron a b c.
Proof.
  intros T. destruct (heron_sq a b c T) as [P Q]. set (A := heron a b c) in *. destruct T as (Pa & Pb & Pc & _).
  assert (PA : 0 < a * a) by (apply Rmult_lt_0_compat; auto). unfold layoutFace. set (h := 2 * A / a). set (p := (a * a + c * c - b * b) / (2 * a)).
  assert (Hh : c * c - h * h = p * p). { unfold h, p. apply (Rmult_eq_reg_r (4 * (a * a))); [|lra]. replace ((c * c - 2 * A / a * (2 * A / a)) * (4 * (a * a))) with (4 * (a * a) * (c * c) - 16 * (A * A)) by (field; lra). rewrite Q.
    replace ((a * a + c * c - b * b) / (2 * a) * ((a * a + c * c - b * b) / (2 * a)) * (4 * (a * a))) with ((a * a + c * c - b * b) * (a * a + c * c - b * b)) by (field; lra). unfold q16. ring. }
  rewrite Hh. rewrite Rmax_right by (apply Rle_0_sqr). change (p * p) with (Rsqr p). rewrite sqrt_Rsqr_abs.
  assert (W : (if Rgt_dec (b * b) (a * a + c * c) then Rabs p * -1 else Rabs p) = p).
  { assert (S : p * (2 * a) = a * a + c * c - b * b) by (unfold p; field; lra). destruct (Rgt_dec _ _) as [G|G].
    - rewrite Rabs_left; [ring|]. apply (Rmult_lt_reg_r (2 * a)); lra.
    - rewrite Rabs_right; auto. apply Rle_ge. apply (Rmult_le_reg_r (2 * a)); lra. }
  cbv zeta. rewrite W. unfold norm2_2, sub2, neg2, add2, cross2. cbn [px py]. assert (HH : h * h = c * c - p * p) by lra. assert (PP : p * (2 * a) = a * a + c * c - b * b) by (unfold p; field; lra).
  split; [ring|]. split; [replace ((p - a) * (p - a) + (h - 0) * (h - 0)) with (p * p + h * h - p * (2 * a) + a * a) by ring; rewrite HH, PP; ring|]. split; [replace (- p * - p + - h * - h) with (p * p + h * h) by ring; rewrite HH; ring|].
  split; [f_equal; ring|]. unfold h. field. lra.
Qed.
Lemma transport_ok a b l : 0 < l -> norm2_2 a = l * l -> norm2_2 b = l * l -> let r := transportOf a b in
  norm2_2 r = 1 /\ inv2 r = conj2 r /\ cmul r a = neg2 b /\ cmul (conj2 r) b = neg2 a.
Proof.
  intros P Na Nb r. assert (PL : 0 < l * l) by (apply Rmult_lt_0_compat; auto).
  assert (E : r = mk2 ((- px b * px a - py b * py a) / (l * l)) ((- py b * px a + px b * py a) / (l * l))).
  { unfold r, transportOf, cdiv, div2, neg2. cbn [px py]. unfold norm2_2 in Na. rewrite Na.
    set (s := (- px b * px a + - py b * py a) * (1 / (l * l))). set (t := (- py b * px a - - px b * py a) * (1 / (l * l))).
    assert (N : s * s + t * t = 1). { unfold s, t. unfold norm2_2 in Nb. replace ((- px b * px a + - py b * py a) * (1 / (l * l)) * ((- px b * px a + - py b * py a) * (1 / (l * l))) + (- py b * px a - - px b * py a) * (1 / (l * l)) * ((- py b * px a - - px b * py a) * (1 / (l * l))))
      with ((px a * px a + py a * py a) * (px b * px b + py b * py b) / (l * l * (l * l))) by (field; lra). rewrite Na, Nb. field. lra. }
    unfold normalize2, mul2. cbn [px py]. rewrite N, sqrt_1. unfold s, t. f_equal; field; lra. }
  assert (N1 : norm2_2 r = 1). { rewrite E. unfold norm2_2 in *. cbn [px py]. replace ((- px b * px a - py b * py a) / (l * l) * ((- px b * px a - py b * py a) / (l * l)) + (- py b * px a + px b * py a) / (l * l) * ((- py b * px a + px b * py a) / (l * l)))
      with ((px a * px a + py a * py a) * (px b * px b + py b * py b) / (l * l * (l * l))) by (field; lra). rewrite Na, Nb. field. lra. }
  split; auto. split; [unfold inv2, cdiv, div2, conj2; unfold norm2_2 in N1; rewrite N1; cbn [px py]; f_equal; field|]. rewrite E. unfold cmul, conj2, neg2, norm2_2 in *. cbn [px py]. split; f_equal; apply (Rmult_eq_reg_r (l * l)); try lra.
  - replace (((- px b * px a - py b * py a) / (l * l) * px a - (- py b * px a + px b * py a) / (l * l) * py a) * (l * l)) with (- px b * (px a * px a + py a * py a)) by (field; lra). rewrite Na. ring.
  - replace (((- px b * px a - py b * py a) / (l * l) * py a + (- py b * px a + px b * py a) / (l * l) * px a) * (l * l)) with (- py b * (px a * px a + py a * py a)) by (field; lra). rewrite Na. ring.
  - replace (((- px b * px a - py b * py a) / (l * l) * px b - - ((- py b * px a + px b * py a) / (l * l)) * py b) * (l * l)) with (- px a * (px b * px b + py b * py b)) by (field; lra). rewrite Nb. ring.
  - replace (((- px b * px a - py b * py a) / (l * l) * py b + - ((- py b * px a + px b * py a) / (l * l)) * px b) * (l * l)) with (- py a * (px b * px b + py b * py b)) by (field; lra). rewrite Nb. ring.
Qed.

(** ** filling by keys *)
Lemma fill_key {T A} (d0 : T) (body : mdata T -> A -> res (mdata T)) (key : A -> Z) (val : A -> T) n l : forall d, length (dat d) = n -> NoDup (map key l) -> (forall a, In a l -> (0 <= key a < Z.of_nat n)%Z) ->
  (forall d a, length (dat d) = n -> In a l -> body d a = setAt d (key a) (val a)) ->
  exists d', foldM body l d = Ok d' /\ length (dat d') = n /\ (forall a, In a l -> at_ d0 d' (key a) = val a) /\ (forall i, (0 <= i)%Z -> ~ In i (map key l) -> at_ d0 d' i = at_ d0 d i).
Proof.
  induction l as [|a t IH]; intros d Ld N B H; [exists d; cbn; split; auto; split; auto; split; auto; contradiction|].
  cbn [map] in N. inversion N as [|? ? N1 N2]; subst. cbn [foldM]. rewrite H by (auto; left; auto). destruct (setAt_in d0 d (key a) (val a)) as (d1 & S1 & L1 & V1); [apply B; left; auto|]. rewrite S1. cbn [bind].
  destruct (IH d1 L1 N2 (fun x K => B x (or_intror K)) (fun d x Q K => H d x Q (or_intror K))) as (d2 & S2 & L2 & V2 & U2). exists d2. split; [exact S2|]. split; auto. split.
  - intros b [<-|I]; auto. rewrite U2; auto; [|apply B; left; auto]. rewrite V1 by (apply B; left; auto). rewrite Z.eqb_refl. reflexivity.
  - intros i Hi I. cbn [map In] in I. rewrite U2, V1 by tauto. rewrite (proj2 (Z.eqb_neq _ _)); tauto.
Qed.
Lemma foldM_nested_len {T A B} n (inner : A -> mdata T -> B -> res (mdata T)) (parts : A -> list B) (body : mdata T -> A -> res (mdata T)) l :
  (forall s a, length (dat s) = n -> In a l -> body s a = foldM (inner a) (parts a) s) ->
  (forall a s b s', length (dat s) = n -> inner a s b = Ok s' -> length (dat s') = n) ->
  forall s, length (dat s) = n -> foldM body l s = foldM (fun s p => inner (fst p) s (snd p)) (flat_map (fun a => map (pair a) (parts a)) l) s.
Proof.
  intros H P. assert (PF : forall a q s s', length (dat s) = n -> foldM (inner a) q s = Ok s' -> length (dat s') = n).
  { intros a q. induction q as [|b q IHq]; cbn; intros s s' Ls E; [congruence|]. destruct (inner a s b) eqn:Q; cbn in E; try discriminate. eauto. }
  induction l as [|a t IH]; intros s Ls; cbn [foldM flat_map]; auto. rewrite H by (auto; left; auto). rewrite foldM_app.
  assert (E : forall q s, foldM (fun s p => inner (fst p) s (snd p)) (map (pair a) q) s = foldM (inner a) q s).
  { induction q as [|b q IHq]; intros s'; cbn; auto. destruct (inner a s' b); cbn; auto. }
  rewrite E. destruct (foldM (inner a) (parts a) s) eqn:Q; cbn [bind]; auto. apply IH; [intros s' x Ls' Hx; apply H; auto; right; auto|]. eauto.
Qed.
Lemma setAt_len {T} (d d' : mdata T) i v : setAt d i v = Ok d' -> length (dat d') = length (dat d).
Proof.
  unfold setAt. destruct (i <? 0)%Z; [discriminate|]. unfold md_put, wr. destruct (_ <? _)%nat; cbn [bind]; intros E; try discriminate. injection E as <-. cbn [dat]. apply len_upd.
Qed.

Section M.
Context (m : mesh) (V : Valid m).
Let CN := va_cn m V.
Local Notation intH := (intH m).
(** loops over edges that write both sides *)
Lemma edge_fill (p : Z -> bool) (val : Z -> V2) (body : mdata V2 -> Z -> res (mdata V2)) x0 :
  (forall d e, length (dat d) = Z.to_nat (heCap m) -> liveE m EEdge e -> body d e = if p e then let* d := setAt d (eHe e) (val (eHe e)) in setAt d (tw (eHe e)) (val (tw (eHe e))) else Ok d) ->
  exists d, (let* es := elements m EEdge in forEach es (newData m EHalfedge x0) body) = Ok d /\ length (dat d) = Z.to_nat (heCap m) /\ (forall h, liveH m h -> p (edge h) = true -> at_ x0 d h = val h).
Proof.
  intros H. destruct (els_ok m EEdge V) as (E & N & _ & I). destruct (newData_R m EHalfedge x0 x0) as [NL NV]. rewrite E. cbn [bind]. rewrite forEach_map. fold (zl m EEdge). cbn [capacity] in NL.
  rewrite (foldM_nested_len (Z.to_nat (heCap m)) (fun _ d h => setAt d h (val h)) (fun e => if p e then sides e else [])); auto.
  2: { intros d e Ld He. apply zl_In in He; auto. rewrite H by auto. destruct (p e); auto. unfold sides. cbn [foldM]. destruct (setAt d (eHe e) (val (eHe e))) as [d1| |]; cbn [bind]; auto. destruct (setAt d1 (tw (eHe e)) (val (tw (eHe e)))); auto. }
  2: { intros a s b s' Ls Es. apply setAt_len in Es. congruence. }
  set (ps := flat_map _ _). assert (PS : forall q, In q ps <-> liveE m EEdge (fst q) /\ p (fst q) = true /\ In (snd q) (sides (fst q))).
  { intros [e h]. unfold ps. rewrite in_flat_map. cbn [fst snd]. split.
    - intros (e' & He & Hp). apply zl_In in He; auto. apply in_map_iff in Hp as (h' & Q & Hh). injection Q as <- <-. destruct (p e') eqn:P; [auto|contradiction].
    - intros (A & B & C). exists e. split; [apply zl_In; auto|]. rewrite B. apply in_map_iff. eauto. }
  assert (SD : forall e h, In h (sides e) <-> edge h = e). { intros e h. unfold sides. cbn [In]. rewrite <- (edge_eHe e) at 3. rewrite edge_eq. split; intros; intuition. }
  assert (NP : NoDup (map snd ps)).
  { assert (Q : forall l, NoDup l -> NoDup (map (@snd Z Z) (flat_map (fun e => map (pair e) (if p e then sides e else [])) l)) /\ forall h, In h (map (@snd Z Z) (flat_map (fun e => map (pair e) (if p e then sides e else [])) l)) -> In (edge h) l).
    { induction l as [|e t IH]; intros Nl; [cbn; split; [constructor|auto]|]. inversion Nl as [|? ? N1 N2]; subst. destruct (IH N2) as [IH1 IH2]. cbn [flat_map]. rewrite map_app, map_map. cbn [snd]. rewrite map_id.
      assert (SE : forall h, In h (if p e then sides e else []) -> edge h = e) by (intros h Hh; destruct (p e); [apply SD; auto|contradiction]). split.
      - apply NoDup_app_intro; auto; [destruct (p e); [|constructor]; unfold sides; constructor; [|constructor; auto; constructor]; intros [Q|[]]; symmetry in Q; revert Q; intros Q; symmetry in Q; apply (tw_neq (eHe e)); auto|]. intros h H1 H2. apply SE in H1. apply IH2 in H2. congruence.
      - intros h Hh. apply in_app_or in Hh as [Hh|Hh]; [left; symmetry; auto|right; auto]. }
    apply Q. apply zl_NoDup; auto. }
  destruct (fill_key x0 (fun (d : mdata V2) (q : Z * Z) => setAt d (snd q) (val (snd q))) snd (fun q => val (snd q)) (Z.to_nat (heCap m)) ps (newData m EHalfedge x0) NL NP) as (d & F & Ld & Vd & _).
  - intros q Hq. apply PS in Hq as (A & _ & C). apply (he_cap m V). cbn [liveE] in A. destruct C as [<-|[<-|[]]]; auto. apply (cn_tw _ CN). auto.
  - intros; reflexivity.
  - exists d. split; [exact F|]. split; auto. intros h K P. apply (Vd (edge h, h)). apply PS. cbn [fst snd]. split; [apply edge_live; auto|]. split; auto. apply SD. auto.
Qed.
Definition pairs_ok (vecs : mdata V2) (len : mdata R) (h : Z) : Prop := 0 < lh len h /\ norm2_2 (at_ (mk2 0 0) vecs h) = lh len h * lh len h /\ norm2_2 (at_ (mk2 0 0) vecs (tw h)) = lh len h * lh len h.
Definition trv (vecs : mdata V2) (h : Z) : V2 := if (h =? eHe (edge h))%Z then transportOf (at_ (mk2 0 0) vecs h) (at_ (mk2 0 0) vecs (tw h)) else inv2 (transportOf (at_ (mk2 0 0) vecs (tw h)) (at_ (mk2 0 0) vecs h)).
Lemma trv_spec vecs len h : pairs_ok vecs len h -> norm2_2 (trv vecs h) = 1 /\ trv vecs (tw h) = conj2 (trv vecs h) /\ cmul (trv vecs h) (at_ (mk2 0 0) vecs h) = neg2 (at_ (mk2 0 0) vecs (tw h)).
Proof.
  intros (P & A & B). unfold trv. rewrite tw_edge, tw_tw. destruct (eHe_edge h) as [E|E]; rewrite E.
  - rewrite Z.eqb_refl. rewrite (proj2 (Z.eqb_neq (tw h) h)) by apply tw_neq. destruct (transport_ok _ _ _ P A B) as (N1 & I1 & C1 & C2). auto.
  - rewrite Z.eqb_refl. rewrite (proj2 (Z.eqb_neq h (tw h))) by (intros Q; symmetry in Q; revert Q; apply tw_neq). destruct (transport_ok _ _ _ P B A) as (N1 & I1 & C1 & C2). rewrite I1. split; [unfold norm2_2, conj2 in *; cbn [px py]; lra|]. split; auto.
    unfold conj2. cbn [px py]. rewrite Ropp_involutive. destruct (transportOf _ _); reflexivity.
Qed.
Lemma across_ok vecs : length (dat vecs) = Z.to_nat (heCap m) -> exists d, transportAcross m vecs = Ok d /\ length (dat d) = Z.to_nat (heCap m) /\ forall h, liveH m h -> ~ ext m h -> ~ ext m (tw h) -> at_ (mk2 0 0) d h = trv vecs h.
Proof.
  intros LV. unfold transportAcross. destruct (edge_fill (fun e => negb (extb m (tw (eHe e)))) (trv vecs) (fun d e => let* b := eIsBoundary m e in if b then Ok d else let* u := dataAt vecs (eHe e) in let* v := dataAt vecs (tw (eHe e)) in
         let r := transportOf u v in let* d := setAt d (eHe e) r in setAt d (tw (eHe e)) (inv2 r)) (mk2 0 0)) as (d & E & Ld & Vd).
  - intros d e Ld K. rewrite eIsBoundary_ok by auto. cbn [bind]. unfold extb. destruct (fFill m <=? fa m (tw (eHe e)))%Z; cbn [negb]; auto.
    assert (KT : liveH m (tw (eHe e))) by (apply (cn_tw _ CN); auto). rewrite !(dataAt_in (mk2 0 0)) by (rewrite LV; apply (he_cap m V); auto). cbn [bind]. unfold trv. rewrite !tw_edge, !tw_tw, !edge_eHe, Z.eqb_refl. rewrite (proj2 (Z.eqb_neq (tw (eHe e)) (eHe e))) by apply tw_neq. reflexivity.
  - exists d. split; auto. split; auto. intros h K X XT. apply Vd; auto. apply negb_true_iff. destruct (extb m (tw (eHe (edge h)))) eqn:Q; auto. exfalso. apply (extb_spec m) in Q. destruct (eHe_edge h) as [W|W]; rewrite W in Q; auto. rewrite tw_tw in Q. auto.
Qed.
Lemma along_ok vecs : length (dat vecs) = Z.to_nat (heCap m) -> exists d, transportAlong m vecs = Ok d /\ length (dat d) = Z.to_nat (heCap m) /\ forall h, liveH m h -> at_ (mk2 0 0) d h = trv vecs h.
Proof.
  intros LV. unfold transportAlong. destruct (edge_fill (fun e => true) (trv vecs) (fun d e => let* u := dataAt vecs (eHe e) in let* v := dataAt vecs (tw (eHe e)) in
         let r := transportOf u v in let* d := setAt d (eHe e) r in setAt d (tw (eHe e)) (inv2 r)) (mk2 0 0)) as (d & E & Ld & Vd).
  - intros d e Ld K. assert (KT : liveH m (tw (eHe e))) by (apply (cn_tw _ CN); auto). rewrite !(dataAt_in (mk2 0 0)) by (rewrite LV; apply (he_cap m V); auto). cbn [bind]. unfold trv. rewrite !tw_edge, !tw_tw, !edge_eHe, Z.eqb_refl. rewrite (proj2 (Z.eqb_neq (tw (eHe e)) (eHe e))) by apply tw_neq. reflexivity.
  - exists d. auto.
Qed.
Context (TR : triangular m) (len : mdata R) (MT : Metric m len).
Local Notation L := (lh len).
Definition vecF (h : Z) : V2 :=
  let h0 := fh m (fa m h) in let '(u, v, w) := layoutFace (L h0) (L (nx m h0)) (L (nx m (nx m h0))) (areaH m len h0) in
  if (h =? h0)%Z then u else if (h =? nx m h0)%Z then v else w.
Lemma vecF_spec h : intH h -> norm2_2 (vecF h) = L h * L h /\ add2 (add2 (vecF h) (vecF (nx m h))) (vecF (nx m (nx m h))) = mk2 0 0 /\ cross2 (vecF h) (vecF (nx m h)) = 2 * areaH m len h.
Proof.
  intros K. pose proof (intH_nx m V h K) as K1. pose proof (intH_nx m V _ K1) as K2. pose proof (fa_liveF m V h K) as Lf. destruct (fh_int m V _ Lf) as [K0 F]. set (h0 := fh m (fa m h)) in *. pose proof (intH_nx m V h0 K0) as K01. pose proof (intH_nx m V _ K01) as K02.
  unfold vecF. rewrite !(cn_fnx _ CN) by (apply K || apply K1). fold h0. pose proof (layout_ok _ _ _ (tri_at m V TR len MT h0 K0)) as LO. change (heron (L h0) (L (nx m h0)) (L (nx m (nx m h0)))) with (areaH m len h0) in LO.
  destruct (layoutFace (L h0) (L (nx m h0)) (L (nx m (nx m h0))) (areaH m len h0)) as [[u v] w]. destruct LO as (N1 & N2 & N3 & S & C). destruct (three m V TR h0 K0) as (E3 & D1 & D2 & D3).
  assert (S1 : px u + px v + px w = 0) by (unfold add2 in S; cbn [px py] in S; congruence). assert (S2 : py u + py v + py w = 0) by (unfold add2 in S; cbn [px py] in S; congruence).
  rewrite <- (areaH_face m V TR len h K). fold h0. rewrite <- C.
  assert (In h (ring3 m h0)) as I by (apply (ring3_ok m V TR _ K0); rewrite F; auto). destruct I as [I|[I|[I|[]]]]; rewrite <- I in *; rewrite ?E3 in *; rewrite ?Z.eqb_refl.
  - rewrite (proj2 (Z.eqb_neq _ _) D1), (proj2 (Z.eqb_neq _ _) D2). rewrite (proj2 (Z.eqb_neq _ _) (not_eq_sym D3)). auto.
  - rewrite (proj2 (Z.eqb_neq _ _) D1), (proj2 (Z.eqb_neq _ _) D2). rewrite (proj2 (Z.eqb_neq _ _) (not_eq_sym D3)). split; auto. split; [unfold add2; f_equal; cbn [px py]; lra|]. unfold cross2. replace (px w) with (- px u - px v) by lra. replace (py w) with (- py u - py v) by lra. ring.
  - rewrite (proj2 (Z.eqb_neq _ _) D1), (proj2 (Z.eqb_neq _ _) D2). rewrite (proj2 (Z.eqb_neq _ _) (not_eq_sym D3)). split; auto. split; [unfold add2; f_equal; cbn [px py]; lra|]. unfold cross2. replace (px w) with (- px u - px v) by lra. replace (py w) with (- py u - py v) by lra. ring.
Qed.
Lemma faceVectors_ok areas : goodAreas m len areas -> exists d, halfedgeVectorsInFace m len areas = Ok d /\ length (dat d) = Z.to_nat (heCap m) /\ forall h, intH h -> at_ (mk2 0 0) d h = vecF h.
Proof.
  intros [LA HA]. destruct (els_ok m EFace V) as (E & N & _ & I). destruct (newData_R m EHalfedge (mk2 0 0) (mk2 0 0)) as [NL NV]. cbn [capacity] in NL. unfold halfedgeVectorsInFace. rewrite E. cbn [bind]. rewrite forEach_map. fold (zl m EFace).
  rewrite (foldM_nested_len (Z.to_nat (heCap m)) (fun _ d h => setAt d h (vecF h)) (fun f => ring3 m (fh m f))); auto.
  2: { intros d f Ld Hf. apply zl_In in Hf; auto. destruct (fh_int m V f Hf) as [K0 F0]. pose proof (intH_nx m V _ K0) as K1. pose proof (intH_nx m V _ K1) as K2. destruct (three m V TR _ K0) as (E3 & D1 & D2 & D3). rewrite fHe_ok by (apply (liveFL_bnd m V f); left; auto). change (getZ (fHalfedge m) f) with (fh m f). cbn [bind].
       rewrite (triLengths_ok m V TR len MT) by auto. cbn [bind]. rewrite next_live by (auto; apply K0). cbn [bind]. rewrite next_live by (auto; apply K1). cbn [bind]. rewrite (dataAt_in 0) by (rewrite LA; apply (f_cap m V); auto). cbn [bind]. fold (valAt areas f).
       replace (valAt areas f) with (areaH m len (fh m f)) by (rewrite <- (HA _ K0), F0; auto). unfold ring3. cbn [foldM]. unfold vecF. rewrite !(cn_fnx _ CN) by (apply K0 || apply K1). rewrite F0. destruct (layoutFace _ _ _ _) as [[u v] w]. rewrite !Z.eqb_refl.
       rewrite (proj2 (Z.eqb_neq _ _) D1), (proj2 (Z.eqb_neq _ _) D2), (proj2 (Z.eqb_neq _ _) (not_eq_sym D3)). destruct (setAt d (fh m f) u) as [d1| |]; cbn [bind]; auto. destruct (setAt d1 (nx m (fh m f)) v) as [d2| |]; cbn [bind]; auto. destruct (setAt d2 _ w); auto. }
  2: { intros a s b s' Ls Es. apply setAt_len in Es. congruence. }
  set (ps := flat_map _ _). assert (PS : forall q, In q ps <-> liveF m (fst q) /\ intH (snd q) /\ fa m (snd q) = fst q).
  { intros [f h]. unfold ps. rewrite in_flat_map. cbn [fst snd]. split.
    - intros (f' & Hf & Hp). apply zl_In in Hf; auto. apply in_map_iff in Hp as (h' & Q & Hh). injection Q as <- <-. destruct (fh_int m V f' Hf) as [K0 F0]. apply (ring3_ok m V TR _ K0) in Hh as [A B]. rewrite F0 in B. auto.
    - intros (A & B & C). exists f. split; [apply zl_In; auto|]. destruct (fh_int m V f A) as [K0 F0]. apply in_map_iff. exists h. split; auto. apply (ring3_ok m V TR _ K0). rewrite F0. auto. }
  assert (NP : NoDup (map snd ps)).
  { assert (Q : forall l, NoDup l -> (forall f, In f l -> liveF m f) -> NoDup (map (@snd Z Z) (flat_map (fun f => map (pair f) (ring3 m (fh m f))) l)) /\ forall h, In h (map (@snd Z Z) (flat_map (fun f => map (pair f) (ring3 m (fh m f))) l)) -> In (fa m h) l).
    { induction l as [|f t IH]; intros Nl Il; [cbn; split; [constructor|auto]|]. inversion Nl as [|? ? N1 N2]; subst. destruct (IH N2 (fun f K => Il f (or_intror K))) as [IH1 IH2]. cbn [flat_map]. rewrite map_app, map_map. cbn [snd]. rewrite map_id. destruct (fh_int m V f (Il f (or_introl eq_refl))) as [K0 F0].
      assert (SE : forall h, In h (ring3 m (fh m f)) -> fa m h = f) by (intros h Hh; apply (ring3_ok m V TR _ K0) in Hh as [_ Q]; congruence). split.
      - apply NoDup_app_intro; auto; [apply (ring3_ok m V TR _ K0)|]. intros h H1 H2. apply SE in H1. apply IH2 in H2. congruence.
      - intros h Hh. apply in_app_or in Hh as [Hh|Hh]; [left; symmetry; auto|right; auto]. }
    apply Q; [apply zl_NoDup; auto|]. intros f Hf. apply zl_In in Hf; auto. }
  destruct (fill_key (mk2 0 0) (fun (d : mdata V2) (q : Z * Z) => setAt d (snd q) (vecF (snd q))) snd (fun q => vecF (snd q)) (Z.to_nat (heCap m)) ps (newData m EHalfedge (mk2 0 0)) NL NP) as (d & F & Ld & Vd & _).
  - intros q Hq. apply PS in Hq as (_ & A & _). apply (he_cap m V). apply A.
  - intros; reflexivity.
  - exists d. split; [exact F|]. split; auto. intros h K. apply (Vd (fa m h, h)). apply PS. cbn [fst snd]. split; [apply fa_liveF; auto|]. auto.
Qed.
End M.
