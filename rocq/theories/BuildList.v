(** What the built mesh contains: getFaceVertexList gives the polygons back, one interior halfedge per arc. *)
From Verif Require Import Base MeshModel MeshSpec MeshBase MeshOrbit MeshExec MeshAlloc MeshBuildModel BuildProofs BuildLoops BuildWalk BuildValid BuildSpec BuildThm.
Open Scope Z_scope.

Lemma linked_chain g l d b : l <> [] -> linked g l -> g (last l d) = b -> chain g (hd d l) l b.
Proof.
  induction l as [|x l IH]; [congruence|]. intros _ H E. destruct l as [|y l].
  - cbn in *. auto.
  - destruct H as [H1 H2]. cbn [hd chain]. split; auto. specialize (IH ltac:(discriminate) H2). cbn [hd] in IH. rewrite H1. apply IH. exact E.
Qed.
Lemma mapM_nth {A B} (f : A -> res B) l l' : length l = length l' -> (forall i x y, nth_error l i = Some x -> nth_error l' i = Some y -> f x = Ok y) -> mapM f l = Ok l'.
Proof.
  revert l'. induction l as [|a l IH]; intros [|b l'] L H; try discriminate L; auto. cbn [mapM].
  rewrite (H 0%nat a b eq_refl eq_refl). cbn [bind]. rewrite (IH l'); auto. intros i x y E1 E2. apply (H (S i)); auto.
Qed.
Lemma filter_all {A} (p : A -> bool) l : (forall x, In x l -> p x = true) -> filter p l = l.
Proof. induction l as [|a l IH]; intros H; cbn [filter]; [auto|]. rewrite H by (left; auto). f_equal. apply IH. intros; apply H; right; auto. Qed.
Lemma zseq_nth n i x : nth_error (zseq n) i = Some x -> x = Z.of_nat i.
Proof.
  unfold zseq. intros H. assert (L : (i < Z.to_nat n)%nat). { assert (K : nth_error (map Z.of_nat (seq 0 (Z.to_nat n))) i <> None) by congruence. apply nth_error_Some in K. rewrite map_length, seq_length in K. auto. }
  rewrite (map_nth_error Z.of_nat i _ (d := i)) in H; [congruence|]. rewrite nth_error_nth' with (d := 0%nat) by (rewrite seq_length; auto). rewrite seq_nth by auto. reflexivity.
Qed.

Section Built.
Context (polys : list (list Z)) (M : mesh) (B : Built polys M) (IN : Inner polys).

Lemma bu_live h : liveH M h <-> 0 <= h < heFill M.
Proof.
  split; [intros [H _]; exact H|]. intros R. destruct (bu_valid _ _ B) as [ST CT CN _]. destruct (bu_cap _ _ B) as (E & _).
  pose proof (ct_he _ CT) as C. rewrite <- E in C. symmetry in C. assert (F : 0 <= heFill M) by lia. pose proof (proj1 (countb_full _ _ F) C h R) as L. unfold liveHb in L. split; [auto|lia].
Qed.
Lemma bu_liveV v : liveV M v <-> 0 <= v < vFill M.
Proof.
  split; [intros [H _]; exact H|]. intros R. destruct (bu_valid _ _ B) as [ST CT CN _]. destruct (bu_nv _ _ B) as (E & E').
  pose proof (ct_v _ CT) as C. rewrite E, <- E' in C. symmetry in C. assert (F : 0 <= vFill M) by lia. pose proof (proj1 (countb_full _ _ F) C v R) as L. unfold liveVb in L. split; [auto|lia].
Qed.
Lemma bu_liveF f : liveF M f <-> 0 <= f < fFill M.
Proof.
  split; [intros [H _]; exact H|]. intros R. destruct (bu_valid _ _ B) as [ST CT CN _]. destruct (bu_nf _ _ B) as (E & E').
  pose proof (ct_f _ CT) as C. rewrite E, <- E' in C. symmetry in C. assert (F : 0 <= fFill M) by lia. pose proof (proj1 (countb_full _ _ F) C f R) as L. unfold liveFb in L. split; [auto|lia].
Qed.

Lemma bu_faceHalfedges f p : nth_error polys f = Some p -> exists l, faceHalfedges M (Z.of_nat f) = Ok l /\ length l = length p /\
  (forall h, In h l <-> liveH M h /\ fa M h = Z.of_nat f) /\
  forall i, (i < length p)%nat -> ve M (nth i l (-1)) = nth i p (-1) /\ ve M (tw (nth i l (-1))) = nth (Nat.modulo (S i) (length p)) p (-1).
Proof.
  intros Hp. destruct (bu_face _ _ B f p Hp) as (l & E & ND & FH & LK & LA & MEM & VS). exists l.
  assert (Lf : (f < length polys)%nat) by (apply nth_error_Some; congruence). destruct (bu_nf _ _ B) as (NF & NF').
  assert (NE : l <> []). { intros ->. pose proof (in_deg _ IN p (nth_error_In _ _ Hp)). cbn in E. lia. }
  assert (CH : chain (nx M) (fh M (Z.of_nat f)) l (fh M (Z.of_nat f))) by (rewrite FH; apply linked_chain; auto).
  assert (IL : forall h, In h l <-> liveH M h /\ fa M h = Z.of_nat f) by (intros h; rewrite bu_live; symmetry; apply MEM).
  split; [|auto]. pose proof (bu_valid _ _ B) as VA. pose proof (va_st _ VA) as ST.
  assert (FB : 0 <= Z.of_nat f < zlen (fHalfedge M)) by (destruct ST; lia).
  unfold faceHalfedges. rewrite fHe_ok by auto. cbn [bind]. apply orbit_loop_chain with (nx M); auto.
  - apply cycle_tl_notin; eauto.
  - intros x Hx. apply IL in Hx as [Hx _]. apply next_live; auto.
  - pose proof (loopFuel_big M VA). assert (length l <= Z.to_nat (heFill M))%nat; [|lia].
    assert (INC : incl l (zseq (heFill M))) by (intros x Hx; apply zseq_In; apply bu_live; apply IL; auto). apply (NoDup_incl_length ND) in INC. unfold zseq in INC. rewrite map_length, seq_length in INC. auto.
Qed.

Theorem bu_list : getFaceVertexList M = Ok polys.
Proof.
  destruct (bu_nf _ _ B) as (NF & NF'). unfold getFaceVertexList. rewrite filter_all.
  2:{ intros f Hf. apply zseq_In in Hf. assert (L : liveF M f) by (apply bu_liveF; auto). destruct L as [_ L]. unfold fh in L. unfold INVALID in *. lia. }
  apply mapM_nth; [unfold zseq; rewrite map_length, seq_length; lia|]. intros i x p Ei Ep. apply zseq_nth in Ei. subst x.
  destruct (bu_faceHalfedges i p Ep) as (l & -> & E & IL & VS). cbn [bind]. apply mapM_nth; auto. intros j h v Eh Ev.
  assert (Lj : (j < length p)%nat) by (apply nth_error_Some; congruence).
  assert (Lh : liveH M h) by (apply IL; eapply nth_error_In; eauto). rewrite vertexOf_ok by (apply bu_live in Lh; pose proof (va_st _ (bu_valid _ _ B)) as []; lia).
  destruct (VS j Lj) as [Q _]. rewrite (nth_error_nth _ _ _ Eh), (nth_error_nth _ _ _ Ev) in Q. congruence.
Qed.

(** one interior halfedge per side *)
Theorem bu_arc_he a b : arc polys a b -> exists h, liveH M h /\ ~ ext M h /\ ve M h = a /\ ve M (tw h) = b.
Proof.
  intros (j & i & p & Hp & Ha & Hb). destruct (bu_faceHalfedges j p Hp) as (l & _ & E & IL & VS).
  assert (Li : (i < length p)%nat) by (apply nth_error_Some; congruence). destruct (VS i Li) as [Q1 Q2]. exists (nth i l (-1)).
  destruct (proj1 (IL (nth i l (-1)))) as [L F]; [apply nth_In; lia|]. split; auto. split.
  - unfold ext. rewrite F. destruct (bu_nf _ _ B) as (_ & NF). assert (j < length polys)%nat by (apply nth_error_Some; congruence). lia.
  - rewrite Q1, Q2. split; apply nth_error_nth; auto.
Qed.
Theorem bu_he_arc h : liveH M h -> ~ ext M h -> arc polys (ve M h) (ve M (tw h)).
Proof.
  intros L X. destruct (bu_nf _ _ B) as (_ & NF). pose proof (bu_valid _ _ B) as VA.
  assert (F : 0 <= fa M h < fFill M). { destruct (cn_fa _ (va_cn _ VA) h L) as [[F _]|F]; [auto|]. unfold ext in X. destruct F as [F _]. pose proof (va_st _ VA) as []. lia. }
  destruct (nth_error polys (Z.to_nat (fa M h))) as [p|] eqn:Hp; [|apply nth_error_None in Hp; lia].
  destruct (bu_faceHalfedges _ p Hp) as (l & _ & E & IL & VS). assert (In h l) as Hl by (apply IL; split; auto; lia).
  apply (In_nth _ _ (-1)) in Hl as (i & Li & <-). destruct (VS i ltac:(lia)) as [-> ->]. exists (Z.to_nat (fa M (nth i l (-1)))), i, p. split; auto.
  split; apply nth_error_nth'; [lia|]. apply Nat.mod_upper_bound. lia.
Qed.
Theorem bu_boundary h : liveH M h -> ~ ext M h -> (ext M (tw h) <-> ~ arc polys (ve M (tw h)) (ve M h)).
Proof.
  intros L X. pose proof (bu_valid _ _ B) as VA. assert (LT : liveH M (tw h)) by (apply (cn_tw _ (va_cn _ VA)); auto). split.
  - intros XT A. destruct (bu_arc_he _ _ A) as (g & Lg & Xg & E1 & E2). assert (g = tw h); [|subst g; contradiction].
    apply (bu_key _ _ B); [apply (proj1 (bu_live _)); exact Lg|apply (proj1 (bu_live _)); exact LT|auto|rewrite E2; f_equal; symmetry; apply tw_tw].
  - intros NA. destruct (Z_lt_dec (fa M (tw h)) (fFill M)) as [K|K]; [|unfold ext; lia]. exfalso. apply NA. pose proof (bu_he_arc (tw h) LT) as Q. rewrite tw_tw in Q. apply Q. unfold ext. lia.
Qed.
Theorem bu_uses v : indices polys -> (liveV M v <-> uses polys v).
Proof.
  intros NN. rewrite bu_liveV. destruct (bu_nv _ _ B) as (_ & ->). destruct (maxIndex_spec polys) as (M1 & M2 & M3). split.
  - intros Hv. apply (in_used _ IN). lia.
  - intros U. pose proof (NN v U). pose proof (M2 v U). lia.
Qed.
End Built.
