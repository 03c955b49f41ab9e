(** ManifoldSurfaceMesh::removeVertex *)
From Verif Require Import Base MeshModel MeshModel2 MeshSpec MeshBase MeshExec MeshOrbit MeshAlloc MeshFlip MeshInsert MeshOpSpec MeshThms MeshConnect MeshDel MeshRemoveEdge.
From Coq Require Import Permutation ListDec.
Open Scope Z_scope.

Lemma memZ_In x l : memZ x l = true <-> In x l. Proof. apply inl_In. Qed.
Lemma memZ_nIn x l : memZ x l = false <-> ~ In x l. Proof. apply inl_nIn. Qed.

(** ** lists *)
Lemma NoDup_app_iff {A} (l r : list A) : NoDup (l ++ r) <-> NoDup l /\ NoDup r /\ forall x, In x l -> ~ In x r.
Proof.
  induction l as [|a l IH]; cbn.
  - split; [intros H; split; [constructor|split; auto]|tauto].
  - rewrite !NoDup_cons_iff, IH, in_app_iff. split.
    + intros (H1 & H2 & H3 & H4). split; [tauto|]. split; auto. intros x [->|Hx]; [tauto|auto].
    + intros ((H1 & H2) & H3 & H4). split; [intros [K|K]; [auto|apply (H4 a); auto]|]. auto.
Qed.
Lemma NoDup_one (x : Z) : NoDup [x]. Proof. constructor; [intros []|constructor]. Qed.
Lemma NoDup_map_intro {A B} (f : A -> B) l : (forall x y, In x l -> In y l -> f x = f y -> x = y) -> NoDup l -> NoDup (map f l).
Proof.
  intros H ND. induction ND as [|x l N ND IH]; cbn; constructor.
  - rewrite in_map_iff. intros (y & E & Hy). apply N. rewrite <- (H y x); auto; [right; auto|left; auto].
  - apply IH. intros; apply H; auto; right; auto.
Qed.
Lemma chain_det f b l : forall a l', chain f a l b -> chain f a l' b -> ~ In b l -> ~ In b l' -> l = l'.
Proof.
  induction l as [|x l IH]; intros a l' C C' N N'.
  - cbn in C. subst a. destruct l' as [|y l']; auto. destruct C' as [<- _]. exfalso. apply N'. left; auto.
  - destruct C as [<- C]. destruct l' as [|y l']; [cbn in C'; subst; exfalso; apply N; left; auto|]. destruct C' as [<- C']. f_equal. eapply IH; eauto.
    + intros K; apply N; right; auto. + intros K; apply N'; right; auto.
Qed.

(** ** the loops of removeVertex *)
Lemma spokes_check_ok hs : forall es, NoDup es -> spokes_check hs es = if NoDup_dec Z.eq_dec (es ++ map edge hs) then Some (es ++ map edge hs) else None.
Proof.
  induction hs as [|h t IH]; intros es ND; cbn [spokes_check map].
  - rewrite app_nil_r. destruct (NoDup_dec Z.eq_dec es); [auto|contradiction].
  - destruct (memZ (edge h) es) eqn:E.
    + destruct (NoDup_dec Z.eq_dec (es ++ edge h :: map edge t)) as [N|]; auto. apply NoDup_app_iff in N as (_ & _ & N). apply memZ_In in E. exfalso. apply (N _ E). left; auto.
    + apply memZ_nIn in E. rewrite IH by (apply NoDup_app_iff; split; auto; split; [apply NoDup_one|intros x Hx [<-|[]]; auto]).
      rewrite <- app_assoc. reflexivity.
Qed.

Section Star.
Context (m : mesh) (V : Valid m) (v : Z) (Lv : liveV m v).
Let CN := va_cn _ V.

Definition is_run (h : Z) (R : list Z) : Prop :=
  R <> [] /\ exists p, chain (nx m) (nx m h) (R ++ [p]) h /\ NoDup (h :: R ++ [p]) /\ (forall x, In x (h :: R ++ [p]) <-> liveH m x /\ fa m x = fa m h).
Lemma is_run_det h R R' : is_run h R -> is_run h R' -> R = R'.
Proof.
  intros (_ & p & C & N & _) (_ & p' & C' & N' & _). apply NoDup_cons_iff in N as [N _]. apply NoDup_cons_iff in N' as [N' _].
  pose proof (chain_det _ _ _ _ _ C C' N N') as E. apply app_inj_tail in E. tauto.
Qed.
Lemma run_exists h : liveH m h -> nx m h <> h -> nx m (nx m h) <> h -> exists R, is_run h R.
Proof.
  intros Hh N1 N2. destruct (rest_cycle m 0 V h Hh) as (l & C & ND & R & _). destruct l as [|x l] using rev_ind; [cbn in C; congruence|]. clear IHl.
  exists l. split; [intros ->; cbn in C; destruct C as [-> C]; congruence|]. exists x. auto.
Qed.
Lemma run_last h R p : liveH m h -> chain (nx m) (nx m h) (R ++ [p]) h -> nx m p = h.
Proof. intros Hh C. apply chain_app in C as (c & _ & C). destruct C as [<- C]. exact C. Qed.
Lemma into_spoke x : liveH m x -> ve m (tw x) = ve m (nx m x).
Proof. intros H. symmetry. apply (cn_vnx _ CN); auto. Qed.

Lemma run_loop_ok : forall R p out fuel cur es vs acc, R <> [] -> chain (nx m) cur (R ++ [p]) out -> ~ In out (R ++ [p]) ->
  (forall x, In x (R ++ [p]) -> liveH m x) -> (length R <= fuel)%nat -> NoDup es -> NoDup vs ->
  run_loop fuel m out cur es vs acc = Ok (if NoDup_dec Z.eq_dec (es ++ map edge R) then if NoDup_dec Z.eq_dec (vs ++ map (ve m) R) then Some (es ++ map edge R, vs ++ map (ve m) R, acc ++ R) else None else None).
Proof.
  induction R as [|x t IH]; [congruence|]. intros p out fuel cur es vs acc _ C NO L Hf Ne Nv. cbn [app] in C. destruct C as [-> C].
  destruct fuel as [|fuel]; [cbn in Hf; lia|]. cbn [run_loop map]. destruct (memZ (edge cur) es) eqn:E1.
  { destruct (NoDup_dec Z.eq_dec (es ++ edge cur :: map edge t)) as [N|]; auto. apply NoDup_app_iff in N as (_ & _ & N). apply memZ_In in E1. exfalso. apply (N _ E1). left; auto. }
  assert (Lx : liveH m cur) by (apply L; left; auto). pose proof (liveH_bnd m V cur Lx) as Bx. rewrite vertexOf_ok by tauto. cbn [bind].
  destruct (memZ (ve m cur) vs) eqn:E2.
  { destruct (NoDup_dec Z.eq_dec (es ++ edge cur :: map edge t)) as [N|]; auto. destruct (NoDup_dec Z.eq_dec (vs ++ ve m cur :: map (ve m) t)) as [N'|]; auto.
    apply NoDup_app_iff in N' as (_ & _ & N'). apply memZ_In in E2. exfalso. apply (N' _ E2). left; auto. }
  rewrite next_ok by tauto. cbn [bind]. assert (Ln : liveH m (nx m cur)) by (apply CN; auto). rewrite (next_live m V) by auto. cbn [bind].
  apply memZ_nIn in E1. apply memZ_nIn in E2.
  assert (Ne' : NoDup (es ++ [edge cur])) by (apply NoDup_app_iff; split; auto; split; [apply NoDup_one|intros y Hy [<-|[]]; auto]).
  assert (Nv' : NoDup (vs ++ [ve m cur])) by (apply NoDup_app_iff; split; auto; split; [apply NoDup_one|intros y Hy [<-|[]]; auto]).
  destruct t as [|y t].
  - cbn in C. destruct C as [Ep C]. rewrite C, Z.eqb_refl. cbn [map].
    destruct (NoDup_dec Z.eq_dec (es ++ [edge cur])); [|contradiction]. destruct (NoDup_dec Z.eq_dec (vs ++ [ve m cur])); [|contradiction]. reflexivity.
  - pose proof C as C0. cbn [app] in C. destruct C as [Ey C]. destruct (Z.eqb_spec (nx m (nx m cur)) out) as [K|K].
    { exfalso. apply NO. rewrite <- K. destruct t as [|z t]; cbn in C; destruct C as [Ez _]; rewrite <- Ez; cbn; auto. }
    rewrite (IH p out fuel (nx m cur) _ _ (acc ++ [cur])); auto.
    + rewrite <- !app_assoc. reflexivity.
    + discriminate.
    + intros K2. apply NO. right; auto.
    + intros z Hz. apply L. right; auto.
    + cbn in Hf |- *. lia.
Qed.

Definition good S es vs runs := Forall2 is_run S runs /\ NoDup (es ++ map edge (concat runs)) /\ NoDup (vs ++ map (ve m) (concat runs)).
Lemma ring_runs_ok : forall S es vs ring, (forall h, In h S -> liveH m h /\ ve m h = v) -> NoDup es -> NoDup vs -> (forall g, liveH m g -> ve m g = v -> In (edge g) es) ->
  (exists runs, good S es vs runs /\ ring_runs m S es vs ring = Ok (Some (ring ++ concat (map (@rev Z) runs)))) \/
  (ring_runs m S es vs ring = Ok None /\ forall runs, ~ good S es vs runs).
Proof.
  induction S as [|h S IH]; intros es vs ring HS Ne Nv SE.
  - left. exists []. cbn. rewrite !app_nil_r. split; auto. split; auto. rewrite !app_nil_r. auto.
  - destruct (HS h (or_introl eq_refl)) as [Lh Vh]. cbn [ring_runs]. rewrite (next_live m V) by auto. cbn [bind].
    assert (DG : nx m h = h \/ nx m (nx m h) = h -> run_loop (loopFuel m) m h (nx m h) es vs [] = Ok None /\ forall R, ~ is_run h R).
    { intros K. split.
      - unfold loopFuel. cbn [run_loop]. assert (In (edge (nx m h)) es) as E.
        { destruct K as [K|K]; [rewrite K; auto|]. assert (Ln : liveH m (nx m h)) by (apply CN; auto). rewrite <- tw_edge. apply SE; [apply CN; auto|]. rewrite into_spoke by auto. rewrite K. auto. }
        apply memZ_In in E. rewrite E. reflexivity.
      - intros R (RN & p & C & N & _). apply NoDup_cons_iff in N as [N _]. destruct R as [|x R]; [congruence|]. cbn in C. destruct C as [Ex C].
        destruct K as [K|K]; [apply N; left; congruence|]. apply N. right. rewrite <- K. destruct R as [|y R]; cbn in C; destruct C as [Ey _]; [left|left]; congruence. }
    destruct (Z.eq_dec (nx m h) h) as [K|K1]; [|destruct (Z.eq_dec (nx m (nx m h)) h) as [K|K2]].
    1, 2: destruct DG as [D1 D2]; auto; rewrite D1; right; split; [reflexivity|]; intros runs (F & _); inversion F; subst; eapply D2; eauto.
    destruct (run_exists h Lh K1 K2) as (R & IR). pose proof IR as (RN & p & C & N & M). pose proof N as N0. apply NoDup_cons_iff in N as [N N'].
    rewrite (run_loop_ok R p); auto.
    2: { intros x Hx. apply M. right; auto. }
    2: { assert (K : (length (h :: R ++ [p]) <= Z.to_nat (heFill m))%nat).
         { assert (Nn : NoDup (map Z.to_nat (h :: R ++ [p]))). { apply NoDup_map_intro; auto. intros x y Hx Hy E. apply M in Hx as [[Hx _] _]. apply M in Hy as [[Hy _] _]. lia. }
           rewrite <- (map_length Z.to_nat). rewrite <- (seq_length (Z.to_nat (heFill m)) 0). apply NoDup_incl_length; auto. intros x Hx. apply in_map_iff in Hx as (y & <- & Hy).
           apply M in Hy as [[Hy _] _]. apply in_seq. lia. }
         cbn in K. rewrite app_length in K. pose proof (loopFuel_big m V). lia. }
    cbn [bind]. destruct (NoDup_dec Z.eq_dec (es ++ map edge R)) as [G1|G1].
    2: { right. split; [reflexivity|]. intros runs (F & F1 & F2). inversion F as [|? R' ? runs' HR HF]; subst. rewrite (is_run_det _ _ _ HR IR) in *. apply G1. cbn in F1. rewrite map_app, app_assoc in F1. apply NoDup_app_l in F1. auto. }
    destruct (NoDup_dec Z.eq_dec (vs ++ map (ve m) R)) as [G2|G2].
    2: { right. split; [reflexivity|]. intros runs (F & F1 & F2). inversion F as [|? R' ? runs' HR HF]; subst. rewrite (is_run_det _ _ _ HR IR) in *. apply G2. cbn in F2. rewrite map_app, app_assoc in F2. apply NoDup_app_l in F2. auto. }
    cbn [app].
    destruct (IH (es ++ map edge R) (vs ++ map (ve m) R) (ring ++ rev R)) as [(runs & (F & F1 & F2) & E)|(E & NG)]; auto.
    + intros h' Hh'. apply HS. right; auto.
    + intros g Hg Eg. apply in_or_app. left; auto.
    + left. exists (R :: runs). split.
      * split; [constructor; auto|]. cbn. rewrite !map_app, !app_assoc. auto.
      * rewrite E. cbn. rewrite <- app_assoc. reflexivity.
    + right. split; auto. intros runs (F & F1 & F2). inversion F as [|? R' ? runs' HR HF]; subst. rewrite (is_run_det _ _ _ HR IR) in *. apply (NG runs'). split; auto.
      cbn in F1, F2. rewrite map_app, app_assoc in F1, F2. auto.
Qed.

(** ** when the checks pass *)
Context (S : list Z) (NS : NoDup S) (MS : forall h, In h S <-> liveH m h /\ ve m h = v).

Lemma run_In : forall S' runs, Forall2 is_run S' runs -> forall x, In x (concat runs) <-> exists h R, In h S' /\ is_run h R /\ In x R.
Proof.
  clear NS MS. induction 1 as [|h R S' runs HR HF IH]; cbn; intros x.
  - split; [contradiction|]. intros (h & R & [] & _).
  - rewrite in_app_iff, IH. split.
    + intros [K|(h' & R' & A & B & C)]; [exists h, R; auto|]. exists h', R'. auto.
    + intros (h' & R' & [->|A] & B & C); [left; rewrite (is_run_det _ _ _ HR B); auto|]. right. exists h', R'. auto.
Qed.
Lemma star_face h x R : In h S -> is_run h R -> liveH m x -> fa m x = fa m h -> x = h \/ In x R \/ (nx m x = h /\ ve m (tw x) = v).
Proof.
  intros Hh (RN & p & C & N & M) Lx E. apply MS in Hh as [Lh Vh]. assert (K : In x (h :: R ++ [p])) by (apply M; auto).
  destruct K as [K|K]; [auto|]. apply in_app_or in K as [K|[<-|[]]]; auto. right. right. pose proof (run_last h R p Lh C) as E2. split; auto. rewrite into_spoke by auto. rewrite E2. auto.
Qed.

Lemma star_good runs : good S (map edge S) [v] runs -> NoDup (map edge S) -> simpleStar m v /\ (forall x, In x (concat runs) <-> rim m v x).
Proof.
  intros (F & F1 & F2) NE. apply NoDup_app_iff in F1 as (_ & F1 & F3). apply NoDup_app_iff in F2 as (_ & F2 & F4).
  assert (RI := run_In S runs F).
  assert (HR : forall h, In h S -> exists R, is_run h R). { intros h Hh. clear - F Hh. induction F; [contradiction|]. destruct Hh as [<-|Hh]; eauto. }
  assert (LP : forall h, liveH m h -> ve m h = v -> ve m (tw h) <> v).
  { intros h Hh Vh K. assert (I1 : In h S) by (apply MS; auto). assert (I2 : In (tw h) S) by (apply MS; split; auto; apply CN; auto).
    assert (h = tw h) by (apply (NoDup_map_inj edge S); auto; rewrite tw_edge; auto). apply (tw_neq h); auto. }
  assert (FC : forall h g, liveH m h -> liveH m g -> ve m h = v -> ve m g = v -> fa m h = fa m g -> h = g).
  { intros h g Lh Lg Vh Vg E. assert (I1 : In g S) by (apply MS; auto). destruct (HR g I1) as (R & IR). destruct (star_face g h R I1 IR Lh E) as [K|[K|[_ K]]]; auto.
    - exfalso. apply (F3 (edge h)); [apply in_map, MS; auto|]. apply in_map, RI. exists g, R. auto.
    - exfalso. apply (LP h); auto. }
  assert (RM : forall x, In x (concat runs) <-> rim m v x).
  { intros x. rewrite RI. split.
    - intros (h & R & Hh & IR & Hx). pose proof IR as (_ & p & C & N & M). pose proof Hh as Hh'. apply MS in Hh' as [Lh Vh].
      assert (Kx : liveH m x /\ fa m x = fa m h) by (apply M; right; apply in_or_app; auto). destruct Kx as [Lx Ex].
      assert (Ix : In (edge x) (map edge (concat runs))) by (apply in_map, RI; exists h, R; auto).
      split; auto. split; [|split].
      + intros K. apply (F3 (edge x)); auto. apply in_map, MS. auto.
      + intros K. apply (F3 (edge x)); auto. rewrite <- tw_edge. apply in_map, MS. split; auto. apply CN; auto.
      + exists h. auto.
    - intros (Lx & N1 & N2 & h & Lh & Vh & E). assert (Hh : In h S) by (apply MS; auto). destruct (HR h Hh) as (R & IR). exists h, R. split; auto. split; auto.
      destruct (star_face h x R Hh IR Lx E) as [->|[K|[_ K]]]; auto; contradiction. }
  split; auto. split; auto.
  - intros h Lh Vh K. assert (Hh : In h S) by (apply MS; auto). destruct (HR h Hh) as (R & RN & p & C & N & _). apply NoDup_cons_iff in N as [N _].
    destruct R as [|x R]; [congruence|]. cbn in C. destruct C as [Ex C]. apply N. right. rewrite <- K. destruct R as [|y R]; cbn in C; destruct C as [Ey _]; left; congruence.
  - intros x Hx Hx'. apply RM in Hx. apply RM in Hx'. assert (x = tw x) by (apply (NoDup_map_inj edge (concat runs)); auto; rewrite tw_edge; auto). apply (tw_neq x); auto.
  - intros x y Hx Hy E. apply RM in Hx. apply RM in Hy. apply (NoDup_map_inj (ve m) (concat runs)); auto.
Qed.

Lemma star_simple : simpleStar m v -> NoDup (map edge S) /\ exists runs, good S (map edge S) [v] runs.
Proof.
  intros [LP FC BG SE SV].
  assert (NE : NoDup (map edge S)).
  { apply NoDup_map_intro; auto. intros x y Hx Hy E. apply edge_eq in E as [E|E]; auto. exfalso. apply MS in Hx as [Lx Vx]. apply MS in Hy as [Ly Vy]. apply (LP y); auto. rewrite <- E. auto. }
  split; auto.
  assert (HR : forall h, In h S -> exists R, is_run h R).
  { intros h Hh. apply MS in Hh as [Lh Vh]. apply run_exists; auto. intros K. apply (LP h); auto. rewrite into_spoke by auto. rewrite K. auto. }
  assert (HX : exists runs, Forall2 is_run S runs).
  { clear - HR. induction S as [|h t IH]; [exists []; constructor|]. destruct (HR h (or_introl eq_refl)) as (R & IR). destruct IH as (runs & F); [intros g Hg; apply HR; right; auto|]. exists (R :: runs). constructor; auto. }
  destruct HX as (runs & F). exists runs. assert (RI := run_In S runs F).
  assert (RM : forall x, In x (concat runs) -> rim m v x).
  { intros x Hx. apply RI in Hx as (h & R & Hh & IR & Hx). pose proof IR as (_ & p & C & N & M). pose proof Hh as Hh'. apply MS in Hh' as [Lh Vh].
    assert (Kx : liveH m x /\ fa m x = fa m h) by (apply M; right; apply in_or_app; auto). destruct Kx as [Lx Ex]. apply NoDup_cons_iff in N as [N N'].
    split; auto. split; [|split].
    - intros K. assert (x = h) by (apply FC; auto). subst x. apply N. apply in_or_app; auto.
    - intros K. assert (Ln : liveH m (nx m x)) by (apply CN; auto). assert (En : nx m x = h) by (apply FC; auto; [rewrite <- into_spoke; auto|rewrite (cn_fnx _ CN); auto]).
      assert (Lp : liveH m p) by (apply M; right; apply in_or_app; right; left; auto).
      assert (x = p) by (apply (cn_inj _ CN); auto; rewrite (run_last h R p Lh C); auto). subst x. apply NoDup_app_iff in N' as (_ & _ & N'). apply (N' p); auto. left; auto.
    - exists h. auto. }
  assert (ND : NoDup (concat runs)).
  { assert (FS : forall h, In h S -> liveH m h /\ ve m h = v) by (intros h Hh; apply MS; auto). clear - V NS F FC FS CN. induction F as [|h R S' runs HR HF IH]; [constructor|]. cbn.
    apply NoDup_cons_iff in NS as [N1 N2]. apply NoDup_app_iff. pose proof HR as (_ & p & C & N & M). split.
    - apply NoDup_cons_iff in N as [_ N]. apply NoDup_app_l in N. auto.
    - split; [apply IH; auto; intros g Hg; apply FS; right; auto|]. intros x Hx Hx'. apply (run_In S' runs HF) in Hx' as (g & R' & Hg & (_ & p' & _ & _ & M') & Hx').
      assert (E1 : fa m x = fa m h) by (apply M; right; apply in_or_app; auto). assert (E2 : fa m x = fa m g) by (apply M'; right; apply in_or_app; auto).
      destruct (FS h (or_introl eq_refl)). destruct (FS g (or_intror Hg)). assert (h = g) by (apply FC; auto; congruence). subst. auto. }
  split; auto. split.
  - apply NoDup_app_iff. split; auto. split.
    + apply NoDup_map_intro; auto. intros x y Hx Hy E. apply edge_eq in E as [E|E]; auto. exfalso. apply RM in Hx. apply RM in Hy. apply (SE y); auto. rewrite <- E. auto.
    + intros e He He'. apply in_map_iff in He as (h & <- & Hh). apply in_map_iff in He' as (x & E & Hx). apply RM in Hx as (_ & N1 & N2 & _). apply MS in Hh as [_ Vh].
      apply edge_eq in E as [->|E]; [auto|]. apply N2. rewrite E, tw_tw. auto.
  - apply NoDup_app_iff. split; [apply NoDup_one|]. split.
    + apply NoDup_map_intro; auto.
    + intros w [<-|[]] Hx. apply in_map_iff in Hx as (x & E & Hx). apply RM in Hx as (_ & N1 & _). auto.
Qed.
End Star.

(** ** backward linking *)
Fixpoint links (g : Z -> Z) (prev : Z) (r : list Z) : Prop :=
  match r with [] => True | x :: t => g x = prev /\ links g x t end.
Lemma last_default (x : Z) l d : last (x :: l) d = last l x.
Proof. revert x d; induction l as [|y l IH]; intros x d; auto. change (last (x :: y :: l) d) with (last (y :: l) d). rewrite !IH. auto. Qed.
Lemma links_chain g r : forall prev, links g prev r -> chain g (last r prev) (rev r) prev.
Proof.
  induction r as [|x t IH]; intros prev; [cbn; auto|]. intros [E L]. rewrite last_default. cbn [rev]. apply chain_app. exists x. split; [apply IH; auto|]. cbn. auto.
Qed.
Lemma links_eq g g' r : forall prev, links g prev r -> links g' prev r -> forall x, In x r -> g x = g' x.
Proof. induction r as [|y t IH]; intros prev; [contradiction|]. intros [E L] [E' L'] x [->|Hx]; [congruence|]. eapply IH; eauto. Qed.
Lemma links_app g r : forall r' prev, links g prev (r ++ r') <-> links g prev r /\ links g (last r prev) r'.
Proof. induction r as [|x t IH]; intros r' prev; [cbn; tauto|]. rewrite last_default. cbn [app links]. rewrite IH. tauto. Qed.

Lemma link_back_ok : forall r m prev f, NoDup r -> (forall x, In x r -> 0 <= x < zlen (heNext m) /\ 0 <= x < zlen (heFace m)) ->
  exists m', link_back m r prev f = Ok m' /\ Kept m m' /\ links (nx m') prev r /\ (forall h, ~ In h r -> nx m' h = nx m h) /\
    (forall h, fa m' h = if inl h r then f else fa m h) /\ heVertex m' = heVertex m /\ vHalfedge m' = vHalfedge m /\ fHalfedge m' = fHalfedge m.
Proof.
  induction r as [|x t IH]; intros m prev f ND B.
  - exists m. cbn. split; auto. split; [apply kept_refl|]. auto 8.
  - apply NoDup_cons_iff in ND as [N1 N2]. destruct (B x (or_introl eq_refl)) as [B1 B2]. cbn [link_back].
    rewrite setNext_ok by auto. cbn [bind]. rewrite setFace_ok by (proj; auto). cbn [bind].
    set (m1 := with_face (with_next m x prev) x f).
    assert (K1 : Kept m m1) by (eapply kept_trans; [apply stored_wnext|apply stored_wface]).
    destruct (IH m1 x f N2) as (m' & R & K & C & NO & FA & E1 & E2 & E3).
    { intros z Hz. unfold m1. proj. rewrite !zlen_updZ. apply B. right; auto. }
    exists m'. split; [exact R|]. split; [eapply kept_trans; eauto|].
    split. { cbn. split; auto. rewrite NO by auto. unfold m1. rewrite nx_wface, nx_wnext by auto. rewrite Z.eqb_refl. reflexivity. }
    split. { intros h Hh. rewrite NO by (intros K2; apply Hh; right; auto). unfold m1. rewrite nx_wface, nx_wnext by auto. destruct (Z.eqb_spec h x) as [->|]; auto. exfalso; apply Hh; left; auto. }
    split; [|split; [exact E1|split; [exact E2|exact E3]]]. intros h. rewrite FA. unfold inl. cbn [existsb]. fold (inl h t). destruct (inl h t); [rewrite orb_true_r; auto|].
    rewrite orb_false_r. unfold m1. rewrite fa_wface by (proj; auto). rewrite fa_wnext. reflexivity.
Qed.

Lemma fix_vertices_ok : forall hs m,
  (forall h, In h hs -> 0 <= h < zlen (heNext m) /\ 0 <= tw h < zlen (heVertex m) /\ 0 <= ve m (tw h) < zlen (vHalfedge m) /\ vh m (ve m (tw h)) <> -1 /\ nx m h <> -1) ->
  (forall h g, In h hs -> In g hs -> nx m h <> tw g) ->
  exists m', fix_vertices m hs = Ok m' /\ SameLive m m' /\ heNext m' = heNext m /\ heVertex m' = heVertex m /\ heFace m' = heFace m /\ fHalfedge m' = fHalfedge m /\
    (forall w, (forall h, In h hs -> vh m w <> tw h) -> vh m' w = vh m w) /\
    (forall h, In h hs -> vh m (ve m (tw h)) = tw h -> vh m' (ve m (tw h)) = nx m h).
Proof.
  induction hs as [|h t IH]; intros m B NT.
  - exists m. cbn. split; auto. split; [apply same_live_refl|]. split; auto. split; auto. split; auto. split; auto. split; auto. intros h [].
  - destruct (B h (or_introl eq_refl)) as (B1 & B2 & B3 & B4 & B5). cbn [fix_vertices]. rewrite vertexOf_ok by auto. cbn [bind]. rewrite vHe_ok by auto. cbn [bind].
    destruct (Z.eqb_spec (vh m (ve m (tw h))) (tw h)) as [E|E].
    + rewrite next_ok by auto. cbn [bind]. rewrite setVHe_ok by auto. cbn [bind]. set (w0 := ve m (tw h)) in *. set (m1 := with_vhe m w0 (nx m h)).
      assert (VH : forall w, vh m1 w = if w =? w0 then nx m h else vh m w) by (intros w; unfold m1; apply vh_wvhe; auto).
      destruct (IH m1) as (m' & R & SL & E1 & E2 & E3 & E4 & U & W).
      { intros g Hg. destruct (B g (or_intror Hg)) as (A1 & A2 & A3 & A4 & A5). change (ve m1) with (ve m). change (nx m1) with (nx m). change (heNext m1) with (heNext m). change (heVertex m1) with (heVertex m).
        split; auto. split; auto. unfold m1. proj. rewrite zlen_updZ. split; auto. split; auto. fold m1. rewrite VH. destruct (_ =? _); auto. }
      { intros x y Hx Hy. apply NT; right; auto. }
      exists m'. split; [exact R|]. split; [eapply same_live_trans; [apply sl_wvhe; eauto; congruence|exact SL]|]. split; [exact E1|]. split; [exact E2|]. split; [exact E3|]. split; [exact E4|].
      assert (U0 : vh m' w0 = nx m h). { rewrite U; [rewrite VH, Z.eqb_refl; auto|]. intros g Hg. rewrite VH, Z.eqb_refl. apply NT; [left|right]; auto. }
      split.
      * intros w Hw. destruct (Z.eq_dec w w0) as [->|Kw]; [exfalso; apply (Hw h); [left; auto|auto]|]. rewrite U; rewrite VH; (destruct (Z.eqb_spec w w0); [congruence|auto]). intros g Hg. apply Hw. right; auto.
      * intros g [<-|Hg] Eg; [exact U0|]. destruct (Z.eq_dec (ve m (tw g)) w0) as [Kw|Kw].
        { rewrite Kw in *. rewrite E in Eg. apply tw_inj in Eg. subst g. exact U0. }
        apply (W g Hg). change (ve m1) with (ve m). rewrite VH. destruct (Z.eqb_spec (ve m (tw g)) w0); [congruence|auto].
    + cbn [bind]. destruct (IH m) as (m' & R & SL & E1 & E2 & E3 & E4 & U & W).
      { intros g Hg. apply B. right; auto. } { intros x y Hx Hy. apply NT; right; auto. }
      exists m'. split; [exact R|]. split; [exact SL|]. split; [exact E1|]. split; [exact E2|]. split; [exact E3|]. split; [exact E4|]. split.
      * intros w Hw. apply U. intros g Hg. apply Hw. right; auto.
      * intros g [<-|Hg] Eg; [contradiction|]. auto.
Qed.

Lemma fix_vertices_gap w : forall hs m m', fix_vertices m hs = Ok m' -> (forall h, In h hs -> w <> ve m (tw h)) -> vh m' w = vh m w.
Proof.
  induction hs as [|h t IH]; intros m m' R N; cbn [fix_vertices] in R; [congruence|].
  unfold vertexOf, rdZ in R. destruct (inb (heVertex m) (tw h)); [|discriminate]. cbn [bind] in R.
  pose proof (N h (or_introl eq_refl)) as Nh. unfold ve in Nh. set (w0 := getZ (heVertex m) (tw h)) in *.
  destruct (vHe m w0) as [x| |]; try discriminate. cbn [bind] in R. destruct (x =? tw h); [|apply (IH m); [exact R|intros g Hg; apply N; right; auto]].
  destruct (next m h) as [n| |]; try discriminate. cbn [bind] in R. unfold setVHe, wrZ in R. destruct (inb (vHalfedge m) w0) eqn:Ib; [|discriminate]. cbn [bind] in R.
  unfold inb in Ib. rewrite (IH _ m' R).
  - unfold vh. proj. change (upd (vHalfedge m) (Z.to_nat w0) n) with (updZ (vHalfedge m) w0 n). rewrite getZ_updZ by lia. destruct (Z.eqb_spec w w0); congruence.
  - intros g Hg. apply N. right; auto.
Qed.

Lemma delete_star_ok : forall hs m keep, Stored m -> Counted m -> NoDup (map edge hs) -> NoDup (map (fa m) hs) ->
  (forall h, In h hs -> 0 <= h < heFill m /\ nx m h <> -1 /\ nx m (tw h) <> -1 /\ 0 <= fa m h < fFill m /\ 0 <= fa m (tw h) < fFill m /\ fh m (fa m h) <> -1) ->
  let n := Z.of_nat (length hs) in
  exists m', delete_star m hs keep = Ok m' /\ dims m' = dims m /\ Counted m' /\
    (forall x, nx m' x = if inl (edge x) (map edge hs) then -1 else nx m x) /\
    (forall x, ~ In (edge x) (map edge hs) -> ve m' x = ve m x /\ fa m' x = fa m x) /\ (forall v, vh m' v = vh m v) /\
    (forall f, fh m' f = if negb (f =? keep) && inl f (map (fa m) hs) then -1 else fh m f) /\
    (nHalfedges m', nInterior m', nEdges m', nVertices m', nFaces m', nLoops m') =
    (nHalfedges m - 2 * n, nInterior m - 2 * n, nEdges m - n, nVertices m, nFaces m - n + b2z (inl keep (map (fa m) hs)), nLoops m).
Proof.
  induction hs as [|h t IH]; intros m keep ST CT NE NF B n.
  - exists m. cbn [delete_star]. split; auto. split; auto. split; auto. split; auto. split; auto. split; auto. split; [intros f; cbn; rewrite andb_false_r; auto|].
    cbn. repeat f_equal; lia.
  - cbn [map] in NE, NF. apply NoDup_cons_iff in NE as [NE1 NE]. apply NoDup_cons_iff in NF as [NF1 NF].
    destruct (B h (or_introl eq_refl)) as (B1 & B2 & B3 & B4 & B5 & B6). cbn [delete_star].
    assert (Bh : 0 <= h < zlen (heFace m)) by (destruct ST; lia).
    rewrite faceOf_ok by auto. cbn [bind].
    assert (EH : (h = eHe (edge h) /\ tw h = tw (eHe (edge h))) \/ (h = tw (eHe (edge h)) /\ tw h = eHe (edge h))).
    { assert (K : edge h = edge (eHe (edge h))) by (rewrite edge_eHe; auto). apply edge_eq in K as [K|K]; [left; split; congruence|right]. split; auto. rewrite K at 1. apply tw_tw. }
    set (a := eHe (edge h)) in *.
    assert (Ea : 0 <= a < heFill m). { destruct ST as [_ _ _ _ _ T6 [T7 _] _ _]. clear - B1 T7. unfold a, eHe, edge. lia. }
    destruct (deleteEdge_ok m (edge h)) as (m1 & E1 & D1 & C1 & NX1 & VF1 & VH1 & FH1 & CN1); auto.
    1, 2, 3, 4: fold a; destruct EH as [[Q1 Q2]|[Q1 Q2]]; rewrite <- ?Q1, <- ?Q2; (assumption || lia).
    fold a in NX1, VF1, CN1.
    assert (KK : b2z (fa m a <? fFill m) + b2z (fa m (tw a) <? fFill m) = 2).
    { destruct EH as [[Q1 Q2]|[Q1 Q2]]; rewrite <- ?Q1, <- ?Q2; replace (fa m h <? fFill m) with true by lia; replace (fa m (tw h) <? fFill m) with true by lia; reflexivity. }
    rewrite KK in CN1. rewrite E1. cbn [bind].
    assert (ST1 : Stored m1) by (eapply dims_stored; eauto).
    pose proof D1 as D1'. unfold dims in D1'. injection D1' as I1 I2 I3 I4 I5 I6 I7 I8 I9 _ _ _ _ _.
    assert (IE : forall x, x = a \/ x = tw a <-> edge x = edge h).
    { intros x. rewrite edge_eq. destruct EH as [[Q1 Q2]|[Q1 Q2]]; rewrite <- ?Q1, <- ?Q2; tauto. }
    assert (NX1' : forall x, nx m1 x = if edge x =? edge h then -1 else nx m x).
    { intros x. rewrite NX1. pose proof (IE x) as K. destruct (Z.eqb_spec (edge x) (edge h)) as [Q|Q]; destruct (Z.eqb_spec x a), (Z.eqb_spec x (tw a)); cbn [orb]; auto; tauto. }
    assert (VF1' : forall x, edge x <> edge h -> ve m1 x = ve m x /\ fa m1 x = fa m x) by (intros x K; apply VF1; intros ->; apply K, IE; auto).
    assert (M2 : exists m2, (if fa m h =? keep then Ok m1 else deleteFace m1 (fa m h)) = Ok m2 /\ dims m2 = dims m1 /\ Counted m2 /\
      (forall x, nx m2 x = nx m1 x /\ ve m2 x = ve m1 x /\ fa m2 x = fa m1 x) /\ (forall v, vh m2 v = vh m1 v) /\
      (forall k, fh m2 k = if negb (k =? keep) && (k =? fa m h) then -1 else fh m k) /\
      (nHalfedges m2, nInterior m2, nEdges m2, nVertices m2, nFaces m2, nLoops m2) =
      (nHalfedges m1, nInterior m1, nEdges m1, nVertices m1, nFaces m1 - 1 + b2z (keep =? fa m h), nLoops m1)).
    { destruct (Z.eqb_spec (fa m h) keep) as [K|K].
      - exists m1. split; auto. split; auto. split; auto. split; auto. split; auto. split.
        + intros k. rewrite FH1. destruct (Z.eqb_spec k keep); cbn; auto. destruct (Z.eqb_spec k (fa m h)); [congruence|auto].
        + rewrite K, Z.eqb_refl. change (b2z true) with 1. replace (nFaces m1 - 1 + 1) with (nFaces m1) by lia. reflexivity.
      - destruct (deleteFace_ok m1 (fa m h) ST1 C1) as (m2 & E2 & D2 & C2 & A2 & VH2 & FH2 & CN2); [rewrite I4; auto|rewrite FH1; auto|].
        exists m2. split; auto. split; auto. split; auto. split; auto. split; auto. split.
        + intros k. rewrite FH2, FH1. destruct (Z.eqb_spec k (fa m h)) as [->|]; [|rewrite andb_false_r; auto]. destruct (Z.eqb_spec (fa m h) keep); [congruence|auto].
        + rewrite CN2. destruct (Z.eqb_spec keep (fa m h)); [congruence|]. change (b2z false) with 0. rewrite Z.add_0_r. reflexivity. }
    destruct M2 as (m2 & -> & D2 & C2 & A2 & VH2 & FH2 & CN2). cbn [bind].
    assert (ET : forall g, In g t -> edge g <> edge h) by (intros g Hg K; apply NE1; rewrite <- K; apply in_map; auto).
    assert (FT : forall g, In g t -> fa m2 g = fa m g). { intros g Hg. destruct (A2 g) as (_ & _ & ->). apply VF1'. auto. }
    assert (FM : map (fa m2) t = map (fa m) t) by (apply map_ext_in; auto).
    destruct (IH m2 keep) as (m' & E' & D' & C' & NX' & VF' & VH' & FH' & CN').
    { eapply dims_stored; [rewrite D2; exact D1|exact ST]. } { auto. } { auto. } { rewrite FM; auto. }
    { assert (D12 : dims m2 = dims m) by congruence. unfold dims in D12. injection D12 as J1 _ _ J4 _ _ _ _ _ _ _ _ _ _.
      intros g Hg. destruct (B g (or_intror Hg)) as (G1 & G2 & G3 & G4 & G5 & G6). rewrite J1, J4. split; auto.
      destruct (A2 g) as (-> & _ & ->). destruct (A2 (tw g)) as (-> & _ & ->). rewrite !NX1', tw_edge. destruct (Z.eqb_spec (edge g) (edge h)) as [K|K]; [exfalso; apply (ET g); auto|].
      split; auto. split; auto. destruct (VF1' g K) as [_ ->]. destruct (VF1' (tw g)) as [_ ->]; [rewrite tw_edge; auto|]. split; auto. split; auto.
      rewrite FH2. destruct (Z.eqb_spec (fa m g) (fa m h)) as [Q|Q]; [exfalso; apply NF1; rewrite <- Q; apply in_map; auto|]. rewrite andb_false_r. auto. }
    rewrite FM in FH', CN'.
    exists m'. split; [exact E'|]. split; [congruence|]. split; [exact C'|]. split; [|split; [|split; [|split]]].
    + intros x. rewrite NX'. destruct (A2 x) as (-> & _ & _). rewrite NX1'. unfold inl. cbn [map existsb]. fold (inl (edge x) (map edge t)). destruct (inl (edge x) (map edge t)); [rewrite orb_true_r; auto|].
      rewrite orb_false_r. reflexivity.
    + intros x Hx. cbn [map] in Hx. destruct (VF' x) as [-> ->]; [intros K; apply Hx; right; auto|]. destruct (A2 x) as (_ & -> & ->). apply VF1'. intros K; apply Hx; left; auto.
    + intros w. rewrite VH', VH2, VH1. reflexivity.
    + intros f. rewrite FH', FH2. unfold inl. cbn [map existsb]. fold (inl f (map (fa m) t)). destruct (negb (f =? keep)) eqn:Ek; cbn [andb]; auto. destruct (inl f (map (fa m) t)); [rewrite orb_true_r; auto|]. rewrite orb_false_r. auto.
    + rewrite CN'. injection CN2 as U1 U2 U3 U4 U5 U6. injection CN1 as W1 W2 W3 W4 W5 W6. subst n. cbn [length map]. unfold inl. cbn [existsb]. fold (inl keep (map (fa m) t)).
      assert (b2z ((keep =? fa m h) || inl keep (map (fa m) t)) = b2z (keep =? fa m h) + b2z (inl keep (map (fa m) t))) as ->.
      { destruct (Z.eqb_spec keep (fa m h)) as [->|]; cbn [orb]; [|cbn; lia]. rewrite (proj2 (inl_nIn _ _) NF1). cbn. auto. }
      f_equal; [f_equal; [f_equal; [f_equal; [f_equal|]|]|]|]; lia.
Qed.

(** ** the ring, linked backwards, follows next with the spokes cut out *)
Section Ring.
Context (m : mesh) (V : Valid m) (phi : Z -> Z).
Let CN := va_cn _ V.
Let G := fun x => phi (nx m x).
Lemma rev_links : forall R c q rest P, chain (nx m) c R q -> R <> [] -> (forall x, In x R -> phi x = x) -> phi q = P -> links G c rest -> links G P (rev R ++ rest).
Proof.
  induction R as [|x t IH]; [congruence|]. intros c q rest P [-> C] _ HP E L. cbn [rev]. rewrite <- app_assoc. cbn [app]. destruct t as [|y t].
  - cbn in C |- *. split; auto. unfold G. rewrite C. auto.
  - apply (IH (nx m c) q); auto; [discriminate|intros z Hz; apply HP; right; auto|]. split; auto. unfold G. apply HP. destruct C as [-> _]. right; left; auto.
Qed.
Lemma ring_links : forall S runs g e, Forall2 (is_run m) S runs -> chain (ro m) (ro m g) S e -> liveH m g -> (forall h, In h S -> liveH m h) ->
  (forall x, In x (concat runs) -> phi x = x) -> (forall h, liveH m h -> ve m h = ve m g -> phi (tw h) = nx m h) -> links G (nx m g) (concat (map (@rev Z) runs)).
Proof.
  induction S as [|h S IH]; intros runs g e F C Lg LS HP HQ; inversion F as [|? R ? runs' HR HF]; subst; [exact I|].
  destruct C as [-> C]. cbn [map concat]. destruct HR as (RN & p & CR & N & M).
  assert (Lr : liveH m (ro m g)) by (apply ro_live; auto).
  assert (Lp : liveH m p) by (apply M; right; apply in_or_app; right; left; auto).
  assert (Ep : p = tw g). { apply (cn_inj _ CN); auto; [apply CN; auto|]. rewrite (run_last m _ R p Lr CR). reflexivity. }
  apply chain_app in CR as (c & CR & Cp). destruct Cp as [<- _].
  apply rev_links with (nx m (ro m g)) p; auto.
  - intros x Hx. apply HP. cbn. apply in_or_app; auto.
  - rewrite Ep. auto.
  - apply (IH runs' (ro m g) e); auto.
    + intros x Hx. apply LS. right; auto.
    + intros x Hx. apply HP. cbn. apply in_or_app; auto.
    + intros x Lx Ex. apply HQ; auto. rewrite Ex. apply ve_ro; auto.
Qed.
End Ring.
Lemma last_app_ne {A} (l r : list A) d d' : r <> [] -> last (l ++ r) d = last r d'.
Proof. intros H. destruct (exists_last H) as (r' & x & ->). rewrite app_assoc, !last_last. auto. Qed.
Lemma ring_last m : forall S runs d d', Forall2 (is_run m) S runs -> S <> [] -> last (concat (map (@rev Z) runs)) d = nx m (last S d').
Proof.
  induction S as [|h S IH]; [congruence|]. intros runs d d' F _. inversion F as [|? R ? runs' HR HF]; subst. cbn [map concat]. destruct S as [|h' S].
  - inversion HF; subst. cbn. rewrite app_nil_r. destruct HR as (RN & p & C & _). destruct R as [|x R]; [congruence|]. cbn in C. destruct C as [-> _]. cbn [rev]. apply last_last.
  - rewrite (last_app_ne _ _ d d).
    + rewrite (IH runs' d d') by (auto; discriminate). reflexivity.
    + inversion HF as [|? R' ? runs'' HR' HF']; subst. destruct HR' as (RN & _). cbn. destruct R' as [|y R']; [congruence|]. cbn. destruct (rev R'); discriminate.
Qed.

Section RV.
Context (m : mesh) (V : Valid m) (v : Z) (Lv : liveV m v) (IN : forall h, liveH m h -> ve m h = v -> ~ ext m h).
Let CN := va_cn _ V.
Lemma interior_guard : vIsBoundary m v = Ok false.
Proof.
  destruct (vertex_boundary m v V Lv) as (b & E & H1 & _). rewrite E. destruct b; auto. destruct (proj1 H1 eq_refl) as (h & A & B & C). exfalso. apply (IN h); auto.
Qed.
Lemma removeVertex_null : ~ simpleStar m v -> removeVertex m v = Ok (m, None).
Proof.
  intros NS. unfold removeVertex. rewrite interior_guard. cbn [bind negb guard].
  destruct (vertHalfedges_ok m V v Lv) as (S & E & SN & C & ND & MS). rewrite E. cbn [bind].
  rewrite spokes_check_ok by constructor. cbn [app]. destruct (NoDup_dec Z.eq_dec (map edge S)) as [NE|]; auto.
  destruct (ring_runs_ok m V v Lv S (map edge S) [v] []) as [(runs & GD & R)|(R & NG)]; auto.
  - intros h Hh. apply MS; auto.
  - apply NoDup_one.
  - intros g Hg Vg. apply in_map, MS. auto.
  - exfalso. apply NS. apply (star_good m V v S MS runs GD NE).
  - rewrite R. reflexivity.
Qed.

Lemma removeVertex_merge sp : simpleStar m v -> NoDup sp -> (forall h, In h sp <-> liveH m h /\ ve m h = v) ->
  let n := Z.of_nat (length sp) in let f0 := fa m (vh m v) in
  exists m', removeVertex m v = Ok (m', Some f0) /\ Valid m' /\
    (nHalfedges m', nInterior m', nEdges m', nVertices m', nFaces m', nLoops m') =
    (nHalfedges m - 2 * n, nInterior m - 2 * n, nEdges m - n, nVertices m - 1, nFaces m - (n - 1), nLoops m) /\ dims m' = dims m /\
    (forall h, liveH m' h <-> liveH m h /\ ve m h <> v /\ ve m (tw h) <> v) /\ (forall w, liveV m' w <-> liveV m w /\ w <> v) /\
    (forall f, liveFL m' f <-> liveFL m f /\ (f = f0 \/ forall h, liveH m h -> ve m h = v -> fa m h <> f)) /\
    (forall h, liveH m' h -> ve m' h = ve m h) /\
    (forall h, liveH m' h -> rim m v h -> fa m' h = f0) /\ (forall h, liveH m' h -> ~ rim m v h -> fa m' h = fa m h) /\
    (forall h, liveH m' h -> ve m (tw (nx m h)) <> v -> nx m' h = nx m h) /\ (forall h, liveH m' h -> ve m (tw (nx m h)) = v -> nx m' h = nx m (tw (nx m h))).
Proof.
  intros SS NSp MSp n f0. pose proof (va_st _ V) as ST. destruct ST as [T1 T2 T3 T4 T5 T6 T7 T8 T9].
  unfold removeVertex. rewrite interior_guard. cbn [bind negb guard].
  destruct (vertHalfedges_ok m V v Lv) as (S & ES & SN & CS & NS & MS). rewrite ES. cbn [bind].
  rewrite spokes_check_ok by constructor. cbn [app].
  destruct (star_simple m V v S NS MS SS) as (NE & runs0 & GD0).
  destruct (NoDup_dec Z.eq_dec (map edge S)) as [_|K]; [|contradiction].
  destruct (ring_runs_ok m V v Lv S (map edge S) [v] []) as [(runs & GD & R)|(_ & NG)].
  { intros h Hh. apply MS; auto. } { auto. } { apply NoDup_one. } { intros g Hg Vg. apply in_map, MS. auto. }
  2: { exfalso. apply (NG runs0). auto. }
  rewrite R. cbn [bind app]. destruct (star_good m V v S MS runs GD NE) as [_ RM]. destruct GD as (FR & FE & _). clear runs0 GD0.
  set (ring := concat (map (@rev Z) runs)) in *.
  assert (PR : Permutation ring (concat runs)).
  { unfold ring. clear. induction runs as [|R t IH]; cbn; auto. apply Permutation_app; auto. symmetry. apply Permutation_rev. }
  assert (RG : forall x, In x ring <-> rim m v x). { intros x. rewrite <- RM. split; apply Permutation_in; auto. symmetry; auto. }
  assert (NR : NoDup ring). { eapply Permutation_NoDup; [symmetry; exact PR|]. apply NoDup_app_r in FE. apply NoDup_map_inv in FE. auto. }
  destruct SS as [LP FC BG SE SV].
  assert (Lh0 : liveH m (vh m v) /\ ve m (vh m v) = v) by (apply CN; auto). destruct Lh0 as [Lh0 Vh0].
  assert (H0 : In (vh m v) S) by (apply MS; auto).
  assert (ES0 : match S with [] => UB | h :: _ => Ok h end = Ok (vh m v)) by (destruct S as [|h t]; [contradiction|]; destruct CS as [-> _]; auto).
  rewrite ES0. cbn [bind]. assert (BN : forall x, liveH m x -> 0 <= x < zlen (heNext m) /\ 0 <= x < zlen (heFace m) /\ 0 <= x < zlen (heVertex m)) by (intros x K; apply (liveH_bnd m V) in K; tauto).
  rewrite faceOf_ok by (apply BN; auto). cbn [bind]. fold f0.
  (* spokes *)
  assert (SP : forall h, In h S -> liveH m h /\ ve m h = v) by (intros h Hh; apply MS; auto).
  assert (FI : forall h, In h S -> liveFL m (fa m h) /\ 0 <= fa m h < fFill m).
  { intros h Hh. apply SP in Hh as [Lh Vh]. assert (K : liveFL m (fa m h)) by (apply CN; auto). split; auto. destruct K as [[K _]|[K _]]; auto. exfalso. apply (IN h); auto. unfold ext. clear - K T9. lia. }
  assert (ROS : forall h, In h S -> In (ro m h) S). { intros h Hh. apply SP in Hh as [Lh Vh]. apply MS. split; [apply ro_live; auto|rewrite ve_ro; auto]. }
  assert (FT : forall h, liveH m h -> fa m (tw h) = fa m (ro m h)) by (intros h Lh; unfold ro; rewrite (cn_fnx _ CN); auto; apply CN; auto).
  assert (TL : forall h, liveH m h -> liveH m (tw h)) by apply (cn_tw _ CN).
  assert (NL : forall h, liveH m h -> liveH m (nx m h)) by apply (cn_nx _ CN).
  assert (VN : forall h, liveH m h -> ve m (nx m h) = ve m (tw h)) by apply (cn_vnx _ CN).
  (* the first halfedge after a spoke is on the rim *)
  assert (RS : forall h, In h S -> rim m v (nx m h)).
  { intros h Hh. destruct (SP h Hh) as [Lh Vh]. split; auto. split; [rewrite VN by auto; apply LP; auto|]. split.
    - intros K. rewrite <- VN in K by auto. assert (E : nx m (nx m h) = h) by (apply FC; auto; rewrite !(cn_fnx _ CN) by auto; auto). apply (BG h); auto.
    - exists h. split; auto. split; auto. apply (cn_fnx _ CN); auto. }
  set (d := fun h => (ve m h =? v) || (ve m (tw h) =? v)).
  assert (Dt : forall h, d h = true <-> ve m h = v \/ ve m (tw h) = v) by (intros h; unfold d; clear; lia).
  assert (Df : forall h, d h = false <-> ve m h <> v /\ ve m (tw h) <> v) by (intros h; unfold d; clear; lia).
  set (phi := fun h => if d h then nx m (tw h) else h).
  set (mg := fun f => inl f (map (fa m) S)).
  assert (Mt : forall f, mg f = true <-> exists h, In h S /\ fa m h = f). { intros f. unfold mg. rewrite inl_In, in_map_iff. split; intros (h & A & B); exists h; auto. }
  assert (RD : forall x, rim m v x <-> liveH m x /\ d x = false /\ mg (fa m x) = true).
  { intros x. rewrite Df, Mt. split.
    - intros (A & B & C & h & D & E & F). split; auto. split; auto. exists h. split; auto. apply MS; auto.
    - intros (A & (B & C) & h & D & F). split; auto. split; auto. split; auto. exists h. apply SP in D. destruct D. auto. }
  assert (LK : links (fun x => phi (nx m x)) (last ring INVALID) ring).
  { replace (last ring INVALID) with (nx m (last S INVALID)) by (symmetry; apply (ring_last m S runs); auto). destruct (chain_last _ _ _ _ SN CS) as [EL IL]. apply (ring_links m V phi S runs (last S INVALID) (vh m v)); auto.
    - rewrite EL. exact CS.
    - apply SP; auto.
    - intros h Hh. apply SP; auto.
    - intros x Hx. apply RM, RD in Hx as (_ & K & _). unfold phi. rewrite K. auto.
    - intros h Lh Eh. destruct (SP _ IL) as [_ VL]. rewrite VL in Eh. unfold phi. rewrite (proj2 (Dt (tw h))); [rewrite tw_tw; auto|]. right. rewrite tw_tw. auto. }
  (* linking *)
  destruct (link_back_ok ring m (last ring INVALID) f0 NR) as (m1 & E1 & K1 & LK1 & NO & FA1 & EV1 & EVh1 & EFh1).
  { intros x Hx. apply RG in Hx as (Hx & _). apply BN in Hx. tauto. }
  rewrite E1. cbn [bind].
  assert (NXR : forall x, In x ring -> nx m1 x = phi (nx m x)) by (apply (links_eq _ _ ring (last ring INVALID)); auto).
  assert (RNN : ring <> []). { intros K. assert (K2 : In (nx m (vh m v)) ring) by (apply RG, RS; auto). rewrite K in K2. contradiction. }
  assert (RGL : forall x, In x ring -> In (nx m1 x) ring).
  { intros x Hx. apply in_rev. apply cycle_closed with (last ring INVALID); [intros K; apply RNN; rewrite <- (rev_involutive ring), K; auto| |apply in_rev in Hx; auto].
    pose proof (links_chain _ _ _ LK1) as C. replace (last ring (last ring INVALID)) with (last ring INVALID) in C; [exact C|]. destruct ring; [congruence|]. rewrite !last_default. reflexivity. }
  assert (SL1 : SameLive m m1).
  { split; auto.
    - intros h. destruct (in_dec Z.eq_dec h ring) as [K|K]; [|rewrite NO by auto; tauto].
      pose proof (RGL h K) as K2. apply RG in K as (K & _). apply RG in K2 as (K2 & _). destruct K as [_ K]. destruct K2 as [K2 _]. clear - K K2. split; intros; lia.
    - intros h _. rewrite FA1. destruct (inl h ring) eqn:Ei; [|tauto]. apply inl_In, RG, RD in Ei as (_ & _ & Ei). apply Mt in Ei as (g & Hg & Eg). destruct (FI g Hg) as [_ Bg]. destruct (FI _ H0) as [_ B0]. rewrite <- Eg. fold f0 in B0. clear - Bg B0. lia.
    - intros w. unfold vh. rewrite EVh1. tauto.
    - intros f. unfold fh. rewrite EFh1. tauto. }
  assert (VE1 : forall h, ve m1 h = ve m h) by (intros h; unfold ve; rewrite EV1; auto).
  assert (VH1 : forall h, vh m1 h = vh m h) by (intros h; unfold vh; rewrite EVh1; auto).
  assert (FH1 : forall h, fh m1 h = fh m h) by (intros h; unfold fh; rewrite EFh1; auto).
  assert (SR : forall h, In h S -> ~ In h ring /\ ~ In (tw h) ring).
  { intros h Hh. apply SP in Hh as [Lh Vh]. split; intros K; apply RG in K as (_ & A & B & _); [auto|]. rewrite tw_tw in B. auto. }
  pose proof (kept_dims _ _ K1) as D1. unfold dims, lens in D1. injection D1 as G1 G2 G3 G4 G5 G6 G7 G8 G9 G10 G11 G12 G13 G14.
  destruct (fix_vertices_ok S m1) as (m2 & E2 & SL2 & EN2 & EV2 & EF2 & EFh2 & U2 & W2).
  { intros h Hh. destruct (SP h Hh) as [Lh Vh]. destruct (SR h Hh) as [N1 N2]. rewrite VE1, VH1, (NO h N1), G10, G11, G13. split; [apply BN; auto|]. split; [apply BN; auto|].
    assert (K : liveV m (ve m (tw h))) by (apply CN; auto). split; [destruct K as [K _]; clear - K T8 T4; lia|]. split; [apply K|apply Lh]. }
  { intros h g Hh Hg. destruct (SR h Hh) as [N1 _]. rewrite (NO h N1). intros K. pose proof (RS h Hh) as (_ & _ & Q & _). rewrite K, tw_tw in Q. apply SP in Hg. tauto. }
  rewrite E2. cbn [bind].
  destruct ring as [|first rt] eqn:Ering; [congruence|]. rewrite <- Ering in *. cbn [bind].
  assert (IFi : In first ring) by (rewrite Ering; left; auto).
  assert (SLm2 : SameLive m m2) by (eapply same_live_trans; eauto).
  destruct (FI _ H0) as [LF0 B0]. fold f0 in LF0, B0.
  pose proof (kept_dims _ _ (sl_kept _ _ SLm2)) as D2. pose proof D2 as D2'. unfold dims, lens in D2'. injection D2' as P1 P2 P3 P4 P5 P6 P7 P8 P9 P10 P11 P12 P13 P14.
  assert (Z0 : 0 <= f0 < zlen (fHalfedge m2)) by (rewrite P14; clear - B0 T5 T9; lia).
  rewrite setFHe_ok by exact Z0. cbn [bind]. set (m3 := with_fhe m2 f0 first).
  assert (FH2 : forall f, fh m2 f = fh m f) by (intros f; rewrite <- FH1; unfold fh; rewrite EFh2; auto).
  assert (FH0 : fh m f0 <> -1) by (destruct LF0 as [[_ K]|[_ K]]; exact K).
  assert (SL3 : SameLive m m3).
  { eapply same_live_trans; [exact SLm2|]. apply sl_wfhe; [exact Z0|rewrite FH2; auto|]. apply RG in IFi as ([K _] & _). clear - K. lia. }
  assert (D3 := kept_dims _ _ (sl_kept _ _ SL3)). assert (ST3 : Stored m3) by (eapply dims_stored; [exact D3|apply V]).
  assert (FH3 : forall f, fh m3 f = if f =? f0 then first else fh m f) by (intros f; unfold m3; rewrite fh_wfhe by exact Z0; rewrite FH2; auto).
  assert (NX3 : forall h, nx m3 h = nx m1 h) by (intros h; unfold nx, m3; proj; rewrite EN2; auto).
  assert (VE3 : forall h, ve m3 h = ve m h) by (intros h; rewrite <- VE1; unfold ve, m3; proj; rewrite EV2; auto).
  assert (FA3 : forall h, fa m3 h = if inl h ring then f0 else fa m h) by (intros h; rewrite <- FA1; unfold fa, m3; proj; rewrite EF2; auto).
  assert (VH3 : forall w, vh m3 w = vh m2 w) by auto.
  assert (FS3 : map (fa m3) S = map (fa m) S) by (apply map_ext_in; intros h Hh; rewrite FA3, (proj2 (inl_nIn _ _) (proj1 (SR h Hh))); auto).
  clearbody m3. pose proof D3 as D3'. unfold dims, lens in D3'. injection D3' as Q1 _ Q3 Q4 Q5 _ _ _ Q9 _ _ _ _ _.
  destruct (delete_star_ok S m3 f0 ST3) as (m4 & E4 & D4 & C4 & NX4 & VF4 & VH4 & FH4 & CN4).
  { eapply same_live_counted; [exact SL3|apply V]. } { exact NE. }
  { rewrite FS3. apply NoDup_map_intro; auto. intros x y Hx Hy E. apply SP in Hx as [Lx Vx]. apply SP in Hy as [Ly Vy]. apply FC; auto. }
  { intros h Hh. destruct (SR h Hh) as [N1 N2]. destruct (SP h Hh) as [Lh Vh]. rewrite Q1, Q4, !NX3, (NO h N1), (NO _ N2), !FA3, (proj2 (inl_nIn _ _) N1), (proj2 (inl_nIn _ _) N2).
    split; [apply Lh|]. split; [apply Lh|]. split; [apply (TL h Lh)|]. destruct (FI h Hh) as [A B]. split; [exact B|]. split; [rewrite FT by auto; apply (FI (ro m h)); auto|].
    rewrite FH3. destruct (Z.eqb_spec (fa m h) f0); [|destruct A as [[_ A]|[_ A]]; exact A]. apply RG in IFi as ([K _] & _). clear - K. lia. }
  rewrite FS3 in FH4, CN4. rewrite E4. cbn [bind].
  assert (D4m : dims m4 = dims m) by congruence. pose proof D4m as D4'. unfold dims, lens in D4'. injection D4' as X1 _ X3 X4 X5 _ _ _ X9 _ _ _ _ _.
  assert (U2' : forall w, (forall h, In h S -> vh m w <> tw h) -> vh m2 w = vh m w).
  { intros w Hw. rewrite U2; [apply VH1|]. intros h Hh. rewrite VH1. auto. }
  assert (Vv : vh m2 v = vh m v).
  { apply U2'. intros h Hh K. apply SP in Hh as [Lh Vh]. apply (LP h); auto. rewrite <- K. auto. }
  destruct (deleteVertex_ok m4 v) as (m5 & E5 & D5 & C5 & A5 & VH5 & FH5 & CN5).
  { eapply dims_stored; [exact D4m|apply V]. } { exact C4. } { rewrite X3. apply Lv. } { rewrite VH4, VH3, Vv. apply Lv. }
  rewrite E5. cbn [bind]. exists m5. split; [reflexivity|].
  assert (D5m : dims m5 = dims m) by congruence. pose proof D5m as D5'. unfold dims, lens in D5'. injection D5' as Y1 _ Y3 Y4 Y5 _ _ _ Y9 _ _ _ _ _.
  assert (EDd : forall x, liveH m x -> (inl (edge x) (map edge S) = d x)).
  { intros x Lx. destruct (d x) eqn:E.
    - apply inl_In, in_map_iff. apply Dt in E as [E|E]; [exists x|exists (tw x)]; (split; [rewrite ?tw_edge; auto|apply MS; auto]).
    - apply inl_nIn. intros K. apply in_map_iff in K as (h & Eh & Hh). apply SP in Hh as [Lh Vh]. apply Df in E as [A B]. symmetry in Eh. apply edge_eq in Eh as [->| ->]; [auto|]. rewrite tw_tw in B. auto. }
  assert (LHf : forall h, liveH m5 h <-> liveH m h /\ d h = false).
  { intros h. unfold liveH at 1. rewrite Y1. destruct (A5 h) as (-> & _ & _). rewrite NX4, NX3. split.
    - intros [H1 H2]. destruct (inl (edge h) (map edge S)) eqn:E; [congruence|]. assert (Lh : liveH m h). { split; auto. intros K. apply H2. apply (sl_h _ _ SL1). auto. } split; auto. rewrite <- EDd by auto. auto.
    - intros [Lh Ed]. split; [apply Lh|]. rewrite EDd, Ed by auto. intros K. apply (sl_h _ _ SL1) in K. destruct Lh; auto. }
  assert (NX5 : forall h, liveH m5 h -> nx m5 h = nx m1 h).
  { intros h Hh. apply LHf in Hh as [Lh Ed]. destruct (A5 h) as (-> & _ & _). rewrite NX4, EDd, Ed by auto. apply NX3. }
  assert (VF5 : forall h, liveH m5 h -> ve m5 h = ve m h /\ fa m5 h = if inl h ring then f0 else fa m h).
  { intros h Hh. apply LHf in Hh as [Lh Ed]. destruct (A5 h) as (_ & -> & ->). destruct (VF4 h) as [-> ->]; [|split; auto]. apply inl_nIn. rewrite EDd; auto. }
  assert (VHf : forall w, vh m5 w = if w =? v then -1 else vh m2 w) by (intros w; rewrite VH5, VH4, VH3; reflexivity).
  assert (FHf : forall f, fh m5 f = if negb (f =? f0) && mg f then -1 else if f =? f0 then first else fh m f) by (intros f; rewrite FH5, FH4, FH3; reflexivity).
  assert (LVf : forall w, liveV m5 w <-> liveV m w /\ w <> v).
  { intros w. unfold liveV. rewrite Y3, VHf. pose proof (sl_v _ _ SLm2 w) as K. destruct (Z.eqb_spec w v) as [->|Kw]; [tauto|]. split; [intros [H1 H2]|intros [[H1 H2] _]]; repeat split; auto; tauto. }
  assert (FN1 : first <> -1) by (apply RG in IFi as ([K _] & _); clear - K; lia).
  assert (LFf : forall f, liveFL m5 f <-> liveFL m f /\ (mg f = false \/ f = f0)).
  { intros f. unfold liveFL, liveF, liveL. rewrite Y4, Y5, Y9, FHf. destruct (Z.eqb_spec f f0) as [->|Kf]; cbn [negb andb].
    - split; [intros _; split; [exact LF0|auto]|]. intros [[[A B]|[A B]] _]; [left|right]; auto.
    - destruct (mg f); split; [intros [[_ K]|[_ K]]; congruence|intros [_ [K|K]]; congruence|intros K; split; auto|tauto]. }
  assert (M0 : mg f0 = true) by (apply Mt; exists (vh m v); auto).
  assert (NXF : forall h, liveH m5 h -> nx m5 h = phi (nx m h)).
  { intros h Hh. rewrite NX5 by auto. destruct (in_dec Z.eq_dec h ring) as [K|K]; [auto|]. rewrite NO by auto. apply LHf in Hh as [Lh Ed]. unfold phi. destruct (d (nx m h)) eqn:E; auto. exfalso. apply K, RG, RD.
    split; auto. split; auto. apply Mt. apply Dt in E as [E|E].
    - apply Df in Ed as [_ Ed]. rewrite VN in E by auto. contradiction.
    - exists (nx m (nx m h)). split; [apply MS; split; [auto|rewrite VN by auto; auto]|]. rewrite !(cn_fnx _ CN) by auto. auto. }
  assert (VHL : forall w, liveV m w -> w <> v -> liveH m5 (vh m5 w) /\ ve m (vh m5 w) = w /\ (d (vh m w) = false -> vh m5 w = vh m w)).
  { intros w Lw Kw. rewrite VHf. destruct (Z.eqb_spec w v) as [|_]; [contradiction|]. destruct (cn_vh _ CN w Lw) as [A1 A2].
    destruct (in_dec Z.eq_dec (tw (vh m w)) S) as [K|K].
    - assert (Ew : ve m1 (tw (tw (vh m w))) = w) by (rewrite tw_tw, VE1; auto). pose proof (W2 (tw (vh m w)) K) as Q. rewrite Ew, VH1, tw_tw in Q. specialize (Q eq_refl). rewrite Q.
      destruct (SR _ K) as [N1 _]. rewrite (NO _ N1). pose proof (RS _ K) as Rm. pose proof Rm as (B1 & _). split; [apply LHf; apply RD in Rm; tauto|]. split; [rewrite VN, tw_tw by auto; auto|].
      intros Ed. apply Df in Ed as [_ Ed]. apply SP in K. tauto.
    - assert (Q : vh m2 w = vh m w). { apply U2'. intros h Hh E. apply K. rewrite E, tw_tw. auto. }
      rewrite Q. split; auto. apply LHf. split; auto. apply Df. split; [congruence|]. intros E. apply K, MS. auto. }
  assert (Len : length S = length sp). { apply Nat.le_antisymm; apply NoDup_incl_length; auto; intros x Hx; [apply MSp, MS; auto|apply MS, MSp; auto]. }
  assert (V' : Valid m5).
  { split; [eapply dims_stored; [exact D5m|apply V]|exact C5| |].
    2: { destruct (va_sl _ V) as [G1x G2x]. pose proof D5m as DQ. unfold dims, lens in DQ. injection DQ as QQ1 QQ2 QQ3 QQ4 QQ5 QQ6 QQ7 QQ8 QQ9 QQ10 QQ11 QQ12 QQ13 QQ14. split; rewrite QQ1, ?QQ3, ?QQ4, ?QQ5, ?QQ8, ?QQ9.
      - intros w Hw. rewrite VHf. destruct (Z.eqb_spec w v) as [->|_]; [destruct Lv as [K _]; clear -K Hw; lia|].
        rewrite (fix_vertices_gap w _ _ _ E2), VH1; [apply G1x; exact Hw|]. intros h Hh ->. rewrite VE1 in Hw. apply SP in Hh as [Lh _]. destruct (cn_ve _ CN _ (TL _ Lh)) as [K _]. clear -K Hw. lia.
      - intros f Hf. rewrite FHf. destruct (Z.eqb_spec f f0) as [->|_]; [clear -Hf B0; lia|]. cbn [negb andb]. destruct (mg f) eqn:Em; [apply Mt in Em as (h & Hh & <-); destruct (FI h Hh) as [_ K]; clear -K Hf; lia|]. apply G2x. exact Hf. }
    apply (del_connected m m5 d mg phi f0 (last ring INVALID) (rev ring)); auto.
    - intros h [K _]. exact K.
    - intros h Lh. unfold d. rewrite tw_tw. apply orb_comm.
    - intros h Lh E. apply Mt. apply Dt in E as [E|E]; [exists h; split; auto; apply MS; auto|]. exists (nx m h). split; [apply MS; split; auto; rewrite VN; auto|]. apply (cn_fnx _ CN); auto.
    - intros f E. apply Mt in E as (h & Hh & <-). apply FI; auto.
    - intros h Hh. apply LHf in Hh as [Lh Ed]. apply Df in Ed as [Ed _]. apply LVf. split; auto. apply CN; auto.
    - intros h Lh E. unfold phi. rewrite E. auto.
    - intros h Lh E Kv. apply LVf in Kv as [_ Kv]. unfold phi. rewrite E. apply Dt in E as [E|E]; [contradiction|]. assert (Hs : In (tw h) S) by (apply MS; auto). pose proof (RS _ Hs) as Rm.
      assert (Rd : d (nx m (tw h)) = false) by (apply RD in Rm; tauto). rewrite Rd. split; [apply LHf; split; auto|]. split; [rewrite VN, tw_tw by auto; auto|auto].
    - intros h Hh. apply VF5; auto.
    - intros h Hh. destruct (VF5 h Hh) as [_ ->]. apply LHf in Hh as [Lh Ed]. destruct (inl h ring) eqn:E.
      + apply inl_In, RG, RD in E as (_ & _ & ->). auto.
      + apply inl_nIn in E. destruct (mg (fa m h)) eqn:Em; auto. exfalso. apply E, RG, RD. auto.
    - apply chain_ext with (nx m1).
      + intros x Hx. symmetry. apply NX5, LHf. apply in_rev, RG, RD in Hx. tauto.
      + pose proof (links_chain _ _ _ LK1) as C. replace (last ring (last ring INVALID)) with (last ring INVALID) in C; [exact C|]. destruct ring; [congruence|]. rewrite !last_default. reflexivity.
    - apply NoDup_rev. auto.
    - intros x. rewrite <- in_rev, RG, RD, LHf. tauto.
    - apply LFf. auto.
    - intros w Hw. apply LVf in Hw as [Lw Kw]. split; auto.
    - intros f Hf Kf. rewrite FHf. apply LFf in Hf as [_ [Hf|Hf]]; [|contradiction]. rewrite Hf, andb_false_r. destruct (Z.eqb_spec f f0); [contradiction|auto].
    - rewrite FHf, Z.eqb_refl. cbn [negb andb]. apply in_rev in IFi. auto. }
  split; [exact V'|]. split.
  { rewrite CN5. pose proof (sl_kept _ _ SL3) as [S3 _]. unfold scal in S3. injection S3 as S1 S2 S3 S4 S5 S6 _ _ _ _ _ _ _ _ _. injection CN4 as U1 U3 U4 U5 U6 U7.
    change (mg f0 = true) in M0. unfold mg in M0. rewrite M0 in U6. change (b2z true) with 1 in U6. rewrite U1, U3, U4, U5, U6, U7, S1, S2, S3, S4, S5, S6, Len. fold n. clear.
    f_equal. f_equal. lia. }
  split; [exact D5m|]. split; [intros h; rewrite LHf, Df; tauto|]. split; [exact LVf|]. split.
  { intros f. rewrite LFf. split; intros [A B]; (split; [auto|]).
    - destruct B as [B|B]; auto. right. intros h Lh Vh E. assert (mg f = true) by (apply Mt; exists h; split; auto; apply MS; auto). congruence.
    - destruct B as [B|B]; auto. left. destruct (mg f) eqn:E; auto. apply Mt in E as (h & Hh & Eh). apply SP in Hh as [Lh Vh]. exfalso. apply (B h); auto. }
  split; [intros h Hh; apply VF5; auto|]. split; [|split; [|split]].
  - intros h Hh K. destruct (VF5 h Hh) as [_ ->]. apply RG in K. rewrite (proj2 (inl_In _ _) K). auto.
  - intros h Hh K. destruct (VF5 h Hh) as [_ ->]. destruct (inl h ring) eqn:E; auto. exfalso. apply K, RG, inl_In; auto.
  - intros h Hh K. rewrite NXF by auto. apply LHf in Hh as [Lh Ed]. unfold phi. destruct (d (nx m h)) eqn:E; auto. apply Dt in E as [E|E]; [|contradiction]. apply Df in Ed as [_ Ed]. rewrite VN in E by auto. contradiction.
  - intros h Hh K. rewrite NXF by auto. unfold phi. rewrite (proj2 (Dt _)); auto.
Qed.
End RV.

Lemma remove_vertex_spec m v : Valid m -> liveV m v ->
  ((exists h, liveH m h /\ ve m h = v /\ ext m h) -> removeVertex m v = Throw) /\
  ((forall h, liveH m h -> ve m h = v -> ~ ext m h) -> ~ simpleStar m v -> removeVertex m v = Ok (m, None)) /\
  ((forall h, liveH m h -> ve m h = v -> ~ ext m h) -> simpleStar m v -> forall spokes, NoDup spokes -> (forall h, In h spokes <-> liveH m h /\ ve m h = v) ->
    let d := Z.of_nat (length spokes) in let f0 := fa m (vh m v) in
    exists m', removeVertex m v = Ok (m', Some f0) /\ Valid m' /\
    nVertices m' = nVertices m - 1 /\ nEdges m' = nEdges m - d /\ nHalfedges m' = nHalfedges m - 2 * d /\ nInterior m' = nInterior m - 2 * d /\ nFaces m' = nFaces m - (d - 1) /\ nLoops m' = nLoops m /\
    (NoDeadLoops m -> NoDeadLoops m') /\
    (forall h, liveH m' h <-> liveH m h /\ ve m h <> v /\ ve m (tw h) <> v) /\ (forall w, liveV m' w <-> liveV m w /\ w <> v) /\
    (forall f, liveFL m' f <-> liveFL m f /\ (f = f0 \/ forall h, liveH m h -> ve m h = v -> fa m h <> f)) /\
    (forall h, liveH m' h -> ve m' h = ve m h) /\
    (forall h, liveH m' h -> rim m v h -> fa m' h = f0) /\ (forall h, liveH m' h -> ~ rim m v h -> fa m' h = fa m h /\ fa m' h <> f0) /\
    (forall h, liveH m' h -> ve m (tw (nx m h)) <> v -> nx m' h = nx m h) /\ (forall h, liveH m' h -> ve m (tw (nx m h)) = v -> nx m' h = nx m (tw (nx m h)))).
Proof.
  intros V Lv. split; [|split].
  - intros K. unfold removeVertex. destruct (vertex_boundary m v V Lv) as (b & E & H1 & _). rewrite E. cbn [bind]. rewrite (proj2 H1 K). reflexivity.
  - intros IN NS. apply removeVertex_null; auto.
  - intros IN SS sp NS MS d f0. destruct (removeVertex_merge m V v Lv IN sp SS NS MS) as (m' & R & V' & C & D & A1 & A2 & A3 & A4 & A5 & A6 & A7 & A8). injection C as C1 C2 C3 C4 C5 C6.
    exists m'. split; [exact R|]. split; [exact V'|]. do 6 (split; [auto|]). split.
    { unfold NoDeadLoops. rewrite C6. unfold dims in D. injection D as _ _ _ _ D5 _ _ _ _ _ _ _ _ _. intros ->. auto. }
    split; [exact A1|]. split; [exact A2|]. split; [exact A3|]. split; [exact A4|]. split; [exact A5|]. split; [|split; [exact A7|exact A8]].
    intros h Hh K. rewrite (A6 h Hh K). split; auto. intros E. apply K. apply A1 in Hh as (L & N1 & N2). split; auto. split; auto. split; auto. exists (vh m v). destruct (cn_vh _ (va_cn _ V) v Lv). auto.
Qed.
