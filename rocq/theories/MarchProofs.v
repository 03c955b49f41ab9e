(** Proofs about getCurveComponents *)
From Verif Require Import Base MarchModel MarchSpec.
From Coq Require Import Permutation.

Section C.
Context {N : Type} (eqb : N -> N -> bool) (nodes : list N).
(** no node occurs twice *)
Hypothesis D : forall i j a b, nth_error nodes i = Some a -> nth_error nodes j = Some b -> (eqb a b = true <-> i = j).
Definition inRange (s : seg) := (fst s < length nodes /\ snd s < length nodes)%nat.
Let rdn i : (i < length nodes)%nat -> exists a, rd nodes i = Ok a /\ nth_error nodes i = Some a.
Proof. intros H. unfold rd. destruct (nth_error nodes i) eqn:E; [eauto|]. apply nth_error_None in E. lia. Qed.

Lemma takeSeg_ok sel k x l : nth_error nodes k = Some x -> (forall s, In s l -> (sel s < length nodes)%nat) ->
  exists o, takeSeg eqb nodes sel x l = Ok o /\ match o with None => forall s, In s l -> sel s <> k | Some (s, r) => sel s = k /\ Permutation l (s :: r) end.
Proof.
  intros K. induction l as [|s l IH]; intros H; cbn [takeSeg].
  - eexists. split; [reflexivity|]. intros s [].
  - destruct (rdn (sel s) (H s (or_introl eq_refl))) as (a & -> & Ea). cbn [bind]. destruct (eqb a x) eqn:E.
    + eexists. split; [reflexivity|]. split; [|reflexivity]. apply (D _ _ _ _ Ea K). exact E.
    + destruct (IH (fun s Hs => H s (or_intror Hs))) as (o & -> & O). cbn [bind]. eexists. split; [reflexivity|]. destruct o as [(t & r)|].
      * destruct O as (O1 & O2). split; auto. rewrite O2. apply perm_swap.
      * intros t [<-|Ht]; [|auto]. intros X. apply (D _ _ _ _ Ea K) in X. congruence.
Qed.
Lemma linked_cons {A} (r : A -> A -> Prop) a l : (forall b, first l = Some b -> r a b) -> linked r l -> linked r (a :: l).
Proof. destruct l as [|b l]; cbn; auto. Qed.
Lemma linked_app {A} (r : A -> A -> Prop) l l' : linked r l -> linked r l' -> (forall a b, final l = Some a -> first l' = Some b -> r a b) -> linked r (l ++ l').
Proof.
  induction l as [|b l IH]; intros L L' H; [exact L'|]. destruct l as [|c l].
  - cbn [app]. apply linked_cons; auto.
  - cbn [app linked] in *. destruct L as (L1 & L2). split; auto. apply IH; auto. intros x y Hx. apply H. unfold final in *. cbn [rev] in *.
    destruct (rev l) as [|z q]; cbn in *; auto.
Qed.
Lemma final_app {A} (l : list A) a l' : final (l ++ a :: l') = final (a :: l').
Proof. unfold final. rewrite rev_app_distr. cbn [rev]. destruct (rev l') as [|z q]; reflexivity. Qed.

Lemma linked_snoc {A} (r : A -> A -> Prop) l a : (forall b, final l = Some b -> r b a) -> linked r l -> linked r (l ++ [a]).
Proof. intros H L. apply linked_app; auto; [exact I|]. intros x y Hx [= <-]. auto. Qed.

Lemma growFront_ok fuel cur l : (length l < fuel)%nat -> inRange cur -> Forall inRange l ->
  exists c r, growFront eqb fuel nodes cur l = Ok (c, r) /\ Permutation l (c ++ r) /\ linked (fun s t => snd s = fst t) (cur :: c) /\
    forall z s, final (cur :: c) = Some z -> In s r -> fst s <> snd z.
Proof.
  revert cur l. induction fuel as [|k IH]; intros cur l H C F; [lia|]. cbn [growFront].
  destruct (rdn (snd cur) (proj2 C)) as (x & -> & Ex). cbn [bind].
  destruct (takeSeg_ok fst (snd cur) x l Ex) as (o & -> & O); [intros s Hs; apply (proj1 (Forall_forall _ _) F); auto|]. cbn [bind].
  destruct o as [(s & r)|].
  - destruct O as (O1 & O2). pose proof (Permutation_Forall O2 F) as F'. inversion F' as [|? ? Fs Fr]; subst. pose proof (Permutation_length O2) as Ln. cbn in Ln.
    destruct (IH s r ltac:(lia) Fs Fr) as (c & r' & -> & P & L & M). cbn [bind]. do 2 eexists. split; [reflexivity|]. split; [rewrite O2; cbn; rewrite P; reflexivity|].
    split; [cbn [linked] in *; auto|]. intros z t Hz Ht. apply M; auto. rewrite <- Hz. symmetry. exact (final_app [cur] s c).
  - do 2 eexists. split; [reflexivity|]. split; [reflexivity|]. split; [exact I|]. intros z s [= <-] Hs. auto.
Qed.
Lemma growBack_ok fuel cur l : (length l < fuel)%nat -> inRange cur -> Forall inRange l ->
  exists c r, growBack eqb fuel nodes cur l = Ok (c, r) /\ Permutation l (c ++ r) /\ linked (fun s t => snd s = fst t) (c ++ [cur]) /\
    forall a s, first (c ++ [cur]) = Some a -> In s r -> snd s <> fst a.
Proof.
  revert cur l. induction fuel as [|k IH]; intros cur l H C F; [lia|]. cbn [growBack].
  destruct (rdn (fst cur) (proj1 C)) as (x & -> & Ex). cbn [bind].
  destruct (takeSeg_ok snd (fst cur) x l Ex) as (o & -> & O); [intros s Hs; apply (proj1 (Forall_forall _ _) F); auto|]. cbn [bind].
  destruct o as [(s & r)|].
  - destruct O as (O1 & O2). pose proof (Permutation_Forall O2 F) as F'. inversion F' as [|? ? Fs Fr]; subst. pose proof (Permutation_length O2) as Ln. cbn in Ln.
    destruct (IH s r ltac:(lia) Fs Fr) as (c & r' & -> & P & L & M). cbn [bind]. do 2 eexists. split; [reflexivity|]. split; [|split].
    + rewrite O2, P. rewrite <- app_assoc. cbn [app]. apply Permutation_middle.
    + apply linked_snoc; auto. intros b. rewrite final_app. intros [= <-]. auto.
    + intros a t Ha Ht. apply M; auto. rewrite <- Ha. destruct c; reflexivity.
  - do 2 eexists. split; [reflexivity|]. split; [reflexivity|]. split; [exact I|]. intros a s [= <-] Hs. auto.
Qed.

(** what a component may still be joined to *)
Definition ends (c : list seg) (s : seg) : Prop := (forall z, final c = Some z -> fst s <> snd z) /\ (forall a, first c = Some a -> snd s <> fst a).
Lemma components_ok fuel l : (length l <= fuel)%nat -> Forall inRange l ->
  exists cs, components eqb fuel nodes l = Ok cs /\ Permutation (concat cs) l /\ Forall (fun c => c <> [] /\ linked (fun s t => snd s = fst t) c) cs /\
    forall l1 c l2, cs = l1 ++ c :: l2 -> forall s, In s (concat l2) -> ends c s.
Proof.
  revert l. induction fuel as [|k IH]; intros l H F; cbn [components]; destruct (rev l) as [|s r] eqn:E.
  1, 3: assert (l = []) as -> by (rewrite <- (rev_involutive l), E; reflexivity); exists []; split; [reflexivity|]; split; [reflexivity|]; split; [constructor|]; intros [|? ?] ? ? [=].
  - exfalso. destruct l; [discriminate|cbn in H; lia].
  - assert (El : l = rev r ++ [s]) by (rewrite <- (rev_involutive l), E; reflexivity).
    assert (Ln : length l = S (length (rev r))) by (rewrite El, app_length; cbn; lia).
    assert (Fr : Forall inRange (rev r) /\ inRange s) by (rewrite El in F; apply Forall_app in F as (? & F2); inversion F2; auto). destruct Fr as (Fr & Fs).
    destruct (growFront_ok (S (length (rev r))) s (rev r) ltac:(lia) Fs Fr) as (front & l1 & -> & P1 & L1 & M1). cbn [bind].
    assert (F1 : Forall inRange l1) by (apply (Permutation_Forall P1) in Fr; apply Forall_app in Fr; tauto).
    destruct (growBack_ok (S (length l1)) s l1 ltac:(lia) Fs F1) as (back & l2 & -> & P2 & L2 & M2). cbn [bind].
    assert (F2 : Forall inRange l2) by (apply (Permutation_Forall P2) in F1; apply Forall_app in F1; tauto).
    pose proof (Permutation_length P1) as Q1. pose proof (Permutation_length P2) as Q2. rewrite app_length in Q1, Q2.
    destruct (IH l2 ltac:(lia) F2) as (cs & -> & P & L & M). cbn [bind]. eexists. split; [reflexivity|]. split; [|split].
    + cbn [concat]. rewrite P, El. rewrite <- app_assoc. cbn [app]. rewrite <- Permutation_middle. rewrite <- Permutation_cons_append. constructor.
      rewrite P1, P2. rewrite !app_assoc. apply Permutation_app_tail. apply Permutation_app_comm.
    + constructor; auto. split; [destruct back; discriminate|]. replace (back ++ s :: front) with ((back ++ [s]) ++ front) by (rewrite <- app_assoc; reflexivity).
      apply linked_app; auto. destruct front; cbn in *; tauto. intros a b. rewrite final_app. intros [= <-] Hb. destruct front as [|f0 fr]; [discriminate|]. cbn in Hb. injection Hb as <-. cbn in L1. tauto.
    + intros l0 c l3 Eq t Ht. destruct l0 as [|c0 l0]; cbn in Eq; injection Eq as Eq1 Eq2; [subst c l3|exact (M _ _ _ Eq2 t Ht)].
      apply (Permutation_in _ P) in Ht. split.
      * intros z. rewrite final_app. intros Hz. apply M1; auto. apply (Permutation_in _ (Permutation_sym P2)). apply in_or_app. auto.
      * intros a Ha. apply M2; auto. rewrite <- Ha. destruct back; reflexivity.
Qed.
Lemma getCurveComponents_ok l : Forall inRange l ->
  exists cs, getCurveComponents eqb nodes l = Ok cs /\ Permutation (concat cs) l /\ Forall (fun c => c <> [] /\ linked (fun s t => snd s = fst t) c) cs /\
    forall l1 c l2, cs = l1 ++ c :: l2 -> forall s, In s (concat l2) -> ends c s.
Proof. intros F. apply components_ok; auto. Qed.

Lemma linked_at {A} (r : A -> A -> Prop) l1 a b l2 : linked r (l1 ++ a :: b :: l2) -> r a b.
Proof. induction l1 as [|x l1 IH]; [cbn; tauto|]. cbn [app]. intros H. apply IH. destruct (l1 ++ a :: b :: l2); cbn in *; tauto. Qed.
Lemma nodup_snd (l : list seg) s t : NoDup (map snd l) -> In s l -> In t l -> snd s = snd t -> s = t.
Proof.
  induction l as [|a l IH]; intros ND Hs Ht E; [destruct Hs|]. cbn in ND. inversion ND as [|? ? N1 N2]; subst. destruct Hs as [<-|Hs], Ht as [<-|Ht]; auto.
  - exfalso. apply N1. rewrite E. apply in_map; auto.
  - exfalso. apply N1. rewrite <- E. apply in_map; auto.
Qed.
Lemma nodup_app_disj {A} (l l' : list A) x : NoDup (l ++ l') -> In x l -> In x l' -> False.
Proof. induction l as [|a l IH]; intros ND H H'; [destruct H|]. inversion ND as [|? ? N1 N2]; subst. destruct H as [<-|H]; [apply N1; apply in_or_app; auto|eauto]. Qed.
Lemma nd_app_r {A} (l l' : list A) : NoDup (l ++ l') -> NoDup l'.
Proof. induction l as [|a l IH]; auto. intros H. inversion H; auto. Qed.
Lemma nd_app_l {A} (l l' : list A) : NoDup (l ++ l') -> NoDup l.
Proof. induction l as [|a l IH]; intros H; constructor; inversion H as [|? ? N1 N2]; subst; auto. intros X. apply N1. apply in_or_app. auto. Qed.
(** when no two segments end at one node, a curve that can be continued is closed *)
Lemma maximal_front (l : list seg) (cs : list (list seg)) : NoDup (map snd l) -> Permutation (concat cs) l -> Forall (fun c => c <> [] /\ linked (fun s t => snd s = fst t) c) cs ->
  (forall l1 c l2, cs = l1 ++ c :: l2 -> forall s, In s (concat l2) -> ends c s) ->
  forall c z s, In c cs -> final c = Some z -> In s l -> fst s = snd z -> first c = Some s.
Proof.
  intros ND P F M c z s Hc Hz Hs E.
  assert (ND' : NoDup (concat cs)). { apply (Permutation_NoDup (Permutation_sym P)). eapply NoDup_map_inv. exact ND. }
  assert (Zc : In z c) by (unfold final in Hz; apply in_rev; destruct (rev c); [discriminate|cbn in Hz; injection Hz as ->; left; auto]).
  apply (Permutation_in _ (Permutation_sym P)) in Hs. assert (Hs' := Hs). apply in_concat in Hs' as (c' & Hc' & Hs').
  assert (Zl : In z (concat cs)) by (apply in_concat; eauto).
  assert (U : forall t, In t (concat cs) -> snd t = snd z -> t = z). { intros t Ht Et. eapply nodup_snd; [exact ND| | |exact Et]; apply (Permutation_in _ P); auto. }
  destruct (in_split _ _ Hs') as (p & q & Ec'). destruct (rev p) as [|t p'] eqn:Ep.
  - assert (p = []) as -> by (rewrite <- (rev_involutive p), Ep; reflexivity). cbn in Ec'.
    (* s is first in c' *)
    destruct (in_split _ _ Hc) as (l1 & l2 & Ecs). rewrite Ecs in Hc'. apply in_app_or in Hc' as [Hc'|[->|Hc']].
    + exfalso. destruct (in_split _ _ Hc') as (k1 & k2 & Ek). assert (cs = k1 ++ c' :: (k2 ++ c :: l2)) as Ecs' by (rewrite Ecs, Ek, <- app_assoc; reflexivity).
      destruct (M _ _ _ Ecs' z) as (_ & X). { rewrite concat_app. apply in_or_app. right. cbn. apply in_or_app. auto. }
      apply (X s); auto. rewrite Ec'. reflexivity.
    + rewrite Ec'. reflexivity.
    + exfalso. destruct (M _ _ _ Ecs s) as (X & _); [apply in_concat; eauto|]. apply (X z); auto.
  - (* s follows t in c', so t = z *)
    exfalso. assert (Ep' : p = rev p' ++ [t]) by (rewrite <- (rev_involutive p), Ep; reflexivity). rewrite Ep', <- app_assoc in Ec'. cbn in Ec'.
    destruct (proj1 (Forall_forall _ _) F c' Hc') as (_ & Lk). rewrite Ec' in Lk. apply linked_at in Lk.
    assert (t = z) as ->. { apply U; [apply in_concat; exists c'; split; auto; rewrite Ec'; apply in_or_app; right; left; auto|congruence]. }
    destruct (in_split _ _ Hc) as (l1 & l2 & Ecs). rewrite Ecs in ND', Hc'. rewrite concat_app in ND'. cbn [concat] in ND'.
    assert (Zc' : In z c') by (rewrite Ec'; apply in_or_app; right; left; auto).
    apply in_app_or in Hc' as [Hc'|[->|Hc']].
    + eapply nodup_app_disj; [exact ND'|apply in_concat; eauto|apply in_or_app; auto].
    + assert (NDc : NoDup c'). { apply nd_app_r in ND'. eapply nd_app_l. exact ND'. }
      rewrite Ec' in Hz. rewrite final_app in Hz. change (z :: s :: q) with ([z] ++ s :: q) in Hz. rewrite final_app in Hz. rewrite Ec' in NDc.
      apply nd_app_r in NDc. inversion NDc as [|? ? X _]; subst. apply X. unfold final in Hz. apply in_rev. destruct (rev (s :: q)); [discriminate|]. cbn in Hz. injection Hz as ->. left. auto.
    + apply nd_app_r in ND'. eapply nodup_app_disj; [exact ND'|exact Zc|]. apply in_concat. eauto.
Qed.
End C.

(** the same at the other end, by reversing everything *)
Definition swap (s : seg) : seg := (snd s, fst s).
Lemma swap_swap s : swap (swap s) = s. Proof. destruct s; reflexivity. Qed.
Lemma final_rev {A} (l : list A) : final (rev l) = first l.
Proof. unfold final, first. rewrite rev_involutive. reflexivity. Qed.
Lemma first_rev {A} (l : list A) : first (rev l) = final l. Proof. reflexivity. Qed.
Lemma first_map {A B} (f : A -> B) l : first (map f l) = option_map f (first l). Proof. destruct l; reflexivity. Qed.
Lemma final_map {A B} (f : A -> B) l : final (map f l) = option_map f (final l). Proof. unfold final. rewrite <- map_rev. destruct (rev l); reflexivity. Qed.
Lemma linked_rev {A} (r : A -> A -> Prop) l : linked r l -> linked (fun a b => r b a) (rev l).
Proof.
  induction l as [|a l IH]; intros H; [exact I|]. cbn [rev]. apply linked_app.
  - apply IH. destruct l; [exact I|]. cbn in H. tauto.
  - exact I.
  - intros x y Hx [= <-]. rewrite final_rev in Hx. destruct l; [discriminate|]. cbn in Hx. injection Hx as <-. cbn in H. tauto.
Qed.
Lemma linked_map {A B} (f : A -> B) (r : B -> B -> Prop) l : linked (fun a b => r (f a) (f b)) l -> linked r (map f l).
Proof. induction l as [|a l IH]; auto. destruct l as [|b l]; intros K; [exact I|]. destruct K as (X & Y). split; [|apply IH; exact Y]. auto. Qed.
Lemma linked_impl {A} (r r' : A -> A -> Prop) l : (forall a b, r a b -> r' a b) -> linked r l -> linked r' l.
Proof. intros H. induction l as [|a l IH]; auto. destruct l as [|b l]; intros K; [exact I|]. destruct K as (X & Y). split; [|apply IH; exact Y]. auto. Qed.
Lemma concat_perm {A} (f : list A -> list A) ls : (forall l, Permutation (f l) l) -> Permutation (concat (map f ls)) (concat ls).
Proof. intros H. induction ls as [|l ls IH]; cbn; auto. apply Permutation_app; auto. Qed.
Lemma maximal_back (l : list seg) (cs : list (list seg)) : NoDup (map fst l) -> Permutation (concat cs) l -> Forall (fun c => c <> [] /\ linked (fun s t => snd s = fst t) c) cs ->
  (forall l1 c l2, cs = l1 ++ c :: l2 -> forall s, In s (concat l2) -> ends c s) ->
  forall c a s, In c cs -> first c = Some a -> In s l -> snd s = fst a -> final c = Some s.
Proof.
  intros ND P F M c a s Hc Ha Hs E. set (r := fun c : list seg => rev (map swap c)).
  assert (CR : forall ls, Permutation (concat (map r ls)) (map swap (concat ls))).
  { induction ls as [|x ls IH]; cbn; auto. rewrite map_app. apply Permutation_app; auto. unfold r. apply Permutation_sym, Permutation_rev. }
  assert (X : first (r c) = Some (swap s)).
  { refine (maximal_front (map swap l) (map r cs) _ _ _ _ (r c) (swap a) (swap s) _ _ _ _).
    - rewrite map_map. cbn. exact ND.
    - rewrite CR. apply Permutation_map. exact P.
    - apply Forall_forall. intros d Hd. apply in_map_iff in Hd as (c' & <- & Hc'). destruct (proj1 (Forall_forall _ _) F c' Hc') as (N & L). split.
      + unfold r. intros Z. apply N. destruct c'; auto. cbn in Z. destruct (rev (map swap c')); discriminate.
      + unfold r. rewrite <- map_rev. apply linked_map. apply linked_rev in L. eapply linked_impl; [|exact L]. cbn. auto.
    - intros l1 d l2 Eq t Ht.
      destruct (map_eq_app _ _ _ _ Eq) as (k1 & k2 & -> & <- & E2). destruct (map_eq_cons _ _ E2) as (c' & k3 & -> & <- & <-).
      apply (Permutation_in _ (CR k3)) in Ht. apply in_map_iff in Ht as (t' & <- & Ht). destruct (M _ _ _ eq_refl t' Ht) as (M1 & M2). split.
      + intros z Hz. unfold r in Hz. rewrite final_rev, first_map in Hz. destruct (first c') as [b|]; [|discriminate]. cbn in Hz. injection Hz as <-. cbn. apply M2. reflexivity.
      + intros z Hz. unfold r in Hz. rewrite first_rev, final_map in Hz. destruct (final c') as [b|]; [|discriminate]. cbn in Hz. injection Hz as <-. cbn. apply M1. reflexivity.
    - apply in_map. exact Hc.
    - unfold r. rewrite final_rev. etransitivity; [apply first_map|]. change (option_map swap (first c) = Some (swap a)). rewrite Ha. reflexivity.
    - apply in_map. exact Hs.
    - cbn. exact E. }
  unfold r in X. rewrite first_rev, final_map in X. destruct (final c) as [b|]; [|discriminate].
  assert (Y : swap b = swap s) by (injection X; intros; unfold swap; congruence). rewrite <- (swap_swap b), Y, swap_swap. reflexivity.
Qed.
