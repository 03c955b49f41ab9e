(** C28-C34: polygon mesh clean-up, triangulation, orientation, union and OBJ round trip. *)
From Verif Require Import Base PolygonModel PolygonSpec PolygonProofs OrientModel OrientSpec OrientProofs.
From Coq Require Import Permutation Sorted.

(** A sort meeting [sorts], so the theorems below about an arbitrary std::sort are not vacuous *)
Section ISort.
Context {A : Type} (leb : A -> A -> bool).
Fixpoint ins (x : A) (l : list A) : list A := match l with [] => [x] | y :: t => if leb x y then x :: l else y :: ins x t end.
Definition isort (l : list A) : list A := fold_right ins [] l.
Variable le : A -> A -> Prop.
Hypothesis leb_le : forall x y, leb x y = true <-> le x y.
Hypothesis le_total : forall x y, le x y \/ le y x.
Hypothesis le_trans : forall x y z, le x y -> le y z -> le x z.
Lemma ins_perm x l : Permutation (x :: l) (ins x l).
Proof. induction l; simpl; auto. destruct (leb x a); auto. rewrite <- IHl. constructor. Qed.
Lemma ins_sorted x l : StronglySorted le l -> StronglySorted le (ins x l).
Proof.
  induction 1; simpl. repeat constructor. destruct (leb x a) eqn:E.
  - apply leb_le in E. constructor. constructor; auto. constructor; auto. eapply Forall_impl; [|exact H0]. simpl; intros; eauto.
  - assert (le a x). { destruct (le_total x a); auto. apply leb_le in H1. congruence. }
    constructor; auto. rewrite Forall_forall in *. intros y Y. apply (Permutation_in _ (Permutation_sym (ins_perm x l))) in Y. destruct Y as [<-|Y]; auto.
Qed.
Lemma isort_sorts : sorts le isort.
Proof.
  intros l. split.
  - induction l; simpl; auto. rewrite <- ins_perm. constructor; auto.
  - induction l; simpl. constructor. apply ins_sorted; auto.
Qed.
End ISort.

Fixpoint lexb (a b : list nat) : bool :=
  match a, b with [], _ => true | _ :: _, [] => false | x :: s, y :: t => if x <? y then true else if x =? y then lexb s t else false end.
Lemma lexb_lexle a : forall b, lexb a b = true <-> lexle a b.
Proof.
  induction a as [|x a IH]; intros [|y b]; simpl.
  - split; auto. constructor.
  - split; auto. constructor.
  - split; [discriminate|]. intros H; inversion H.
  - destruct (Nat.ltb_spec x y). split; auto. intros; constructor; auto.
    destruct (Nat.eqb_spec x y). subst. rewrite IH. split; intros Q. apply lex_eq; auto. inversion Q; subst; auto; lia.
    split; [discriminate|]. intros Q; inversion Q; subst; lia.
Qed.
Lemma lexle_total a : forall b, lexle a b \/ lexle b a.
Proof.
  induction a as [|x a IH]; intros [|y b]; try (left; constructor; fail); try (right; constructor; fail).
  destruct (lt_eq_lt_dec x y) as [[H|<-]|H]. left; constructor; auto. destruct (IH b); [left|right]; apply lex_eq; auto. right; constructor; auto.
Qed.
Lemma lexle_trans a b c : lexle a b -> lexle b c -> lexle a c.
Proof.
  intros H. revert c. induction H; intros c Q.
  - constructor.
  - inversion Q; subst; [apply lex_lt; lia|apply lex_lt; auto].
  - inversion Q; subst; [apply lex_lt; auto|apply lex_eq; auto].
Qed.
Definition sortNat : list nat -> list nat := isort Nat.leb.
Definition sortKeyed : list (list nat * nat) -> list (list nat * nat) := isort (fun a b => lexb (fst a) (fst b)).
Definition sortEnt : list entry -> list entry := isort (fun a b => (indA a <? indA b) || ((indA a =? indA b) && (indB a <=? indB b))).
Lemma sortNat_sorts : sorts le sortNat.
Proof. apply isort_sorts; intros; try lia. Qed.
Lemma sortKeyed_sorts : sorts (fun a b => lexle (fst a) (fst b)) sortKeyed.
Proof. apply isort_sorts; intros. apply lexb_lexle. apply lexle_total. eapply lexle_trans; eauto. Qed.
Lemma sortEnt_sorts : sorts keyle sortEnt.
Proof. apply isort_sorts; unfold keyle; intros; lia. Qed.

(** ** C28 *)
(** For positions whose == is symmetric and transitive (NaN != NaN is allowed, and 0.0 == -0.0): every corner keeps its
    position up to ==; the remaining positions are pairwise different; the vertices kept are, in order, those without an
    earlier equal vertex. *)
Theorem C28_merge_identical : forall (P U : Type) (eqb : P -> P -> bool) (m : pmesh P U),
  (forall x y, eqb x y = true -> eqb y x = true) -> (forall x y z, eqb x y = true -> eqb y z = true -> eqb x z = true) ->
  inRange m ->
  exists m', mergeIdenticalVertices eqb m = Ok m'
    /\ uvs m' = uvs m
    /\ Forall2 (Forall2 (fun x y => exists p q, x = Some p /\ y = Some q /\ (p = q \/ eqb p q = true))) (geom m') (geom m)
    /\ (forall i j p q, nth_error (verts m') i = Some p -> nth_error (verts m') j = Some q -> i <> j -> eqb p q = false)
    /\ exists ks, increasing ks /\ picks ks (verts m) (verts m')
         /\ forall k v, nth_error (verts m) k = Some v ->
              (In k ks <-> forall j w, j < k -> nth_error (verts m) j = Some w -> eqb w v = false).
Proof. intros P U eqb m S T R. exact (merge_ok eqb S T m R). Qed.
Print Assumptions C28_merge_identical.

(** With exact equality of positions no corner moves at all. *)
Theorem C28_merge_exact : forall (P U : Type) (eqb : P -> P -> bool) (m : pmesh P U),
  (forall x y, eqb x y = true <-> x = y) -> inRange m ->
  exists m', mergeIdenticalVertices eqb m = Ok m' /\ geom m' = geom m /\ NoDup (verts m').
Proof.
  intros P U eqb m E R. destruct (fun a b => merge_ok eqb a b m R) as (m' & A & _ & G & D & _); auto.
  - intros x y H. apply E in H. apply E. auto.
  - intros x y z H1 H2. apply E in H1, H2. apply E. congruence.
  - exists m'. split; auto. split.
    + assert (F : forall (X : Type) (l l' : list X), Forall2 eq l l' -> l = l') by (induction 1; f_equal; auto).
      apply F. eapply F2_impl; [|exact G]. intros x y _ _ H. apply F. eapply F2_impl; [|exact H].
      intros a b _ _ (p & q & -> & -> & [->|Q]); auto. apply E in Q. congruence.
    + apply NoDup_nth_error. intros i j Li Q. destruct (nth_error (verts m') i) as [p|] eqn:Ep.
      * destruct (Nat.eq_dec i j); auto. symmetry in Q. pose proof (D _ _ _ _ Ep Q n) as F. rewrite (proj2 (E p p)) in F by auto. discriminate.
      * apply nth_error_None in Ep. lia.
Qed.
Print Assumptions C28_merge_exact.

(** Outside the range of the vertex list the code reads out of bounds. *)
Theorem C28_merge_out_of_range : forall (P U : Type) (eqb : P -> P -> bool) (m : pmesh P U),
  (forall x y, eqb x y = true -> eqb y x = true) -> (forall x y z, eqb x y = true -> eqb y z = true -> eqb x z = true) ->
  ~ inRange m -> mergeIdenticalVertices eqb m = UB.
Proof. intros P U eqb m S T R. exact (merge_ub eqb S T m R). Qed.
Print Assumptions C28_merge_out_of_range.

Definition ex28 : pmesh nat nat := mkP [[0; 1; 2]; [3; 4; 5]] [7; 8; 9; 8; 7; 6] [].
Example C28_merge_example : inRange ex28 /\ mergeIdenticalVertices Nat.eqb ex28 = Ok (mkP [[0; 1; 2]; [1; 0; 3]] [7; 8; 9; 6] []).
Proof. split; [|reflexivity]. intros f i F I. simpl in *. intuition subst; simpl in *; lia. Qed.
Example C28_merge_example_bad : ~ inRange (mkP [[0; 1; 2]] [5; 5] [] : pmesh nat nat).
Proof. intros H. assert (Q : 2 < 2); [|lia]. apply (H [0; 1; 2]); simpl; auto. Qed.

(** ** C29 *)
(** [ks] lists the used vertices in their original order; the returned map sends a vertex to its place in [ks]. *)
Theorem C29_strip_unused : forall (P U : Type) (m : pmesh P U), inRange m ->
  exists m' newInd ks, stripUnusedVertices m = Ok (m', newInd)
    /\ geom m' = geom m /\ uvs m' = uvs m
    /\ increasing ks /\ picks ks (verts m) (verts m')
    /\ (forall i, In i ks <-> usedIn m i)
    /\ length newInd = length (verts m)
    /\ (forall i k, nth_error newInd i = Some (Some k) <-> nth_error ks k = Some i).
Proof. intros. exact (strip_unused_ok m H). Qed.
Print Assumptions C29_strip_unused.
Theorem C29_strip_unused_throws : forall (P U : Type) (m : pmesh P U), stripUnusedVertices m = Throw <-> ~ inRange m.
Proof.
  intros. split. 2: apply strip_unused_throw. intros E R. destruct (strip_unused_ok m R) as (m' & n & ks & E' & _). congruence.
Qed.
Print Assumptions C29_strip_unused_throws.
Example C29_strip_example : inRange (mkP [[5; 1; 3]] [10; 11; 12; 13; 14; 15] [] : pmesh nat nat)
  /\ stripUnusedVertices (mkP [[5; 1; 3]] [10; 11; 12; 13; 14; 15] [] : pmesh nat nat)
     = Ok (mkP [[2; 0; 1]] [11; 13; 15] [], [None; Some 0; None; Some 1; None; Some 2]).
Proof. split; [|reflexivity]. intros f i F I. simpl in *. intuition subst; simpl in *; lia. Qed.

(** ** C30 *)
Theorem C30_strip_invalid_faces : forall (P U : Type) (m : pmesh P U), uvsAligned m ->
  exists m' ks, stripInvalidFaces m = Ok m' /\ verts m' = verts m
    /\ increasing ks /\ picks ks (polys m) (polys m')
    /\ (if hasParam m then picks ks (uvs m) (uvs m') else uvs m' = [])
    /\ forall k f, nth_error (polys m) k = Some f -> (In k ks <-> goodFace (length (verts m)) f).
Proof.
  intros P U m Al. destruct (stripWorker_ok true true true m Al) as (m' & ks & A & B & C & D & E & F).
  exists m', ks. split; [exact A|]. split; auto. split; auto. split; auto. split; auto.
  intros k f H. rewrite (F k f H). unfold goodFace. split.
  - intros [Q1 Q2]. destruct (Q1 eq_refl). auto.
  - intros (G1 & G2 & G3). auto.
Qed.
Print Assumptions C30_strip_invalid_faces.
Theorem C30_strip_faces_with_duplicate_vertices : forall (P U : Type) (m : pmesh P U), uvsAligned m ->
  exists m' ks, stripFacesWithDuplicateVertices m = Ok m' /\ verts m' = verts m
    /\ increasing ks /\ picks ks (polys m) (polys m')
    /\ (if hasParam m then picks ks (uvs m) (uvs m') else uvs m' = [])
    /\ forall k f, nth_error (polys m) k = Some f -> (In k ks <-> NoDup f).
Proof.
  intros P U m Al. destruct (stripWorker_ok false false true m Al) as (m' & ks & A & B & C & D & E & F).
  exists m', ks. split; [exact A|]. split; auto. split; auto. split; auto. split; auto.
  intros k f H. rewrite (F k f H). split. intros [_ Q]; auto. intros Q. split; auto. discriminate.
Qed.
Print Assumptions C30_strip_faces_with_duplicate_vertices.
(** std::sort may order equivalent faces arbitrarily: the statement holds for every pair of sorts. Every input face has
    exactly one kept representative with the same vertices, and that is an original face with its own UVs. *)
Theorem C30_strip_duplicate_faces : forall (P U : Type) (sortInds : list nat -> list nat) (sortPolys : list (list nat * nat) -> list (list nat * nat)) (m : pmesh P U),
  sorts le sortInds -> sorts (fun a b => lexle (fst a) (fst b)) sortPolys -> uvsAligned m ->
  exists m' ks, stripDuplicateFaces sortInds sortPolys m = Ok m'
    /\ verts m' = verts m /\ NoDup ks /\ picks ks (polys m) (polys m')
    /\ (if hasParam m then picks ks (uvs m) (uvs m') else uvs m' = [])
    /\ forall i f, nth_error (polys m) i = Some f ->
         exists! k, In k ks /\ exists g, nth_error (polys m) k = Some g /\ Permutation f g.
Proof.
  intros P U s1 s2 m S1 S2 Al. apply stripDuplicates_ok; auto; intros l; try apply S1; apply S2.
Qed.
Print Assumptions C30_strip_duplicate_faces.

Definition ex30 : pmesh nat nat :=
  mkP [[0; 1; 2]; [0; 1]; [2; 1; 0]; [0; 3; 3]; [0; 1; 9]; [0; 1; 2; 3; 4; 5; 6; 0]; [0; 1; 2; 3; 4; 5; 6; 7]] [10; 11; 12; 13; 14; 15; 16; 17] [[1]; [2]; [3]; [4]; [5]; [6]; [7]].
Example C30_examples : uvsAligned ex30
  /\ stripInvalidFaces ex30 = Ok (mkP [[0; 1; 2]; [2; 1; 0]; [0; 1; 2; 3; 4; 5; 6; 7]] (verts ex30) [[1]; [3]; [7]])
  /\ stripFacesWithDuplicateVertices ex30 = Ok (mkP [[0; 1; 2]; [0; 1]; [2; 1; 0]; [0; 1; 9]; [0; 1; 2; 3; 4; 5; 6; 7]] (verts ex30) [[1]; [2]; [3]; [5]; [7]])
  /\ sorts le sortNat /\ sorts (fun a b => lexle (fst a) (fst b)) sortKeyed
  /\ stripDuplicateFaces sortNat sortKeyed (mkP [[2; 1; 0]; [0; 1; 3]; [0; 1; 2]] [1; 2; 3; 4] [[1]; [2]; [3]] : pmesh nat nat)
     = Ok (mkP [[2; 1; 0]; [0; 1; 3]] [1; 2; 3; 4] [[1]; [2]]).
Proof. split; [right; reflexivity|]. split; [reflexivity|]. split; [reflexivity|]. split; [apply sortNat_sorts|]. split; [apply sortKeyed_sorts|]. reflexivity. Qed.

(** ** C31 *)
(** each polygon is replaced by a group of triangles over its own vertices with the same signed boundary *)
Theorem C31_triangulate_partial : forall (P U : Type) (m : pmesh P U), (forall f, In f (polys m) -> 3 <= length f) ->
  exists m' tss, triangulateP m = Ok m' /\ verts m' = verts m /\ polys m' = concat tss
    /\ Forall2 (fun p ts => length ts = length p - 2 /\ (forall t, In t ts -> length t = 3 /\ incl t p) /\ forall a b, netAll a b ts = net a b p)
        (polys m) tss.
Proof. intros P U m H. destruct (triangulateP_ok m H) as (m' & tss & A & B & C & D & E). exists m', tss. auto. Qed.
Print Assumptions C31_triangulate_partial.
Theorem C31_triangulate_throws : forall (P U : Type) (m : pmesh P U), triangulateP m = Throw <-> exists f, In f (polys m) /\ length f < 3.
Proof.
  intros. split. 2: apply triangulateP_throw. intros E.
  destruct (Exists_dec (fun f : list nat => length f < 3) (polys m)) as [X|X]. intros; apply lt_dec. apply Exists_exists in X; auto.
  exfalso. destruct (triangulateP_ok m) as (m' & tss & A & _); [|congruence].
  intros f F. destruct (le_lt_dec 3 (length f)); auto. exfalso. apply X. apply Exists_exists. eauto.
Qed.
Print Assumptions C31_triangulate_throws.
(** The UV part of the property is false: triangulating a textured quad leaves one 4-corner UV list for two triangles. *)
Theorem C31_uvs_refuted : exists m m' : pmesh nat nat, uvsMatch m /\ hasParam m = true /\ triangulateP m = Ok m' /\ ~ uvsMatch m' /\ ~ uvsAligned m'.
Proof.
  exists (mkP [[0; 1; 2; 3]] [0; 1; 2; 3] [[0; 1; 2; 3]]), (mkP [[0; 1; 2]; [0; 2; 3]] [0; 1; 2; 3] [[0; 1; 2; 3]]).
  split; [right; reflexivity|]. split; [reflexivity|]. split; [reflexivity|]. split; intros [H|H]; discriminate.
Qed.
Print Assumptions C31_uvs_refuted.
Example C31_example : triangulateP (mkP [[4; 5; 6; 7; 8]] [] [] : pmesh nat nat) = Ok (mkP [[4; 5; 6]; [4; 6; 7]; [4; 7; 8]] [] []).
Proof. reflexivity. Qed.

(** ** C32 *)
(** For every std::sort: the result is the input with some polygons (and their UV lists) reversed; if the polygons can be
    reversed so that paired sides run in opposite directions, then they do so in the result. *)
Theorem C32_consistent_orientation : forall (P U : Type) (sortE : list entry -> list entry) (m : pmesh P U), sorts keyle sortE -> uvsAligned m ->
  exists m' t, consistentlyOrient sortE m = Ok m' /\ verts m' = verts m
    /\ polys m' = flipBy t (polys m) /\ uvs m' = flipBy t (uvs m)
    /\ (properSides (polys m) -> orientable (polys m) -> coherent (polys m')).
Proof. intros P U sortE m S Al. apply consistentlyOrient_ok; auto; intros l; apply S. Qed.
Print Assumptions C32_consistent_orientation.
Definition ex32 : pmesh nat nat := mkP [[0; 1; 2]; [0; 1; 3]; [1; 2; 3]; [0; 2; 3]] [0; 0; 0; 0] [].
Example C32_example : sorts keyle sortEnt /\ uvsAligned ex32
  /\ consistentlyOrient sortEnt ex32 = Ok (mkP [[0; 1; 2]; [3; 1; 0]; [3; 2; 1]; [0; 2; 3]] [0; 0; 0; 0] []).
Proof. split; [apply sortEnt_sorts|]. split; [left; reflexivity|]. vm_compute. reflexivity. Qed.
Example C32_example_hyps : properSides [[0; 1; 2]; [0; 1; 3]] /\ orientable [[0; 1; 2]; [0; 1; 3]] /\ ~ coherent [[0; 1; 2]; [0; 1; 3]].
Proof.
  split; [|split].
  - intros p a b H I. simpl in H. intuition subst; simpl in I; intuition congruence.
  - exists (fun i => i =? 1). intros a b ne H.
    destruct (le_lt_dec 4 a) as [La|La]; [|destruct (le_lt_dec 4 b) as [Lb|Lb]].
    + exfalso. unfold occAll, occ, side_eqb in H. simpl in H. destruct a as [|[|[|[|a]]]]; try lia. simpl in H. rewrite ?andb_false_r in H. simpl in H. lia.
    + exfalso. unfold occAll, occ, side_eqb in H. simpl in H. destruct b as [|[|[|[|b]]]]; try lia. simpl in H. rewrite ?andb_false_r in H. simpl in H. lia.
    + destruct a as [|[|[|[|a]]]]; try lia; destruct b as [|[|[|[|b]]]]; try lia; vm_compute in *; congruence.
  - intros C. specialize (C 0 1). vm_compute in C. specialize (C ltac:(discriminate) eq_refl). discriminate.
Qed.

(** ** C33 *)
(** [pre] are the meshes before [m] in the list: face i of [m] becomes face (faces of pre)+i with every index shifted by
    the vertices of pre, and vertex v becomes vertex (vertices of pre)+v: blocks of different meshes are disjoint. *)
Theorem C33_union : forall (P U : Type) (ms pre post : list (pmesh P U)) (m : pmesh P U), ms = pre ++ m :: post ->
  let u := unionMeshes ms in
  (forall i f, nth_error (polys m) i = Some f -> nth_error (polys u) (sumLen polys pre + i) = Some (map (fun v => sumLen verts pre + v) f))
  /\ (forall v p, nth_error (verts m) v = Some p -> nth_error (verts u) (sumLen verts pre + v) = Some p)
  /\ (forallb hasParam ms = true -> forall i c, nth_error (uvs m) i = Some c -> nth_error (uvs u) (sumLen uvs pre + i) = Some c)
  /\ (forallb hasParam ms = false -> uvs u = [])
  /\ length (polys u) = sumLen polys ms /\ length (verts u) = sumLen verts ms.
Proof. intros. exact (union_ok ms pre post m H). Qed.
Print Assumptions C33_union.
Example C33_example : unionMeshes [mkP [[0; 1; 2]] [5; 6; 7] []; mkP [[2; 1; 0]; [0; 0; 1]] [8; 9; 10] []] = (mkP [[0; 1; 2]; [5; 4; 3]; [3; 3; 4]] [5; 6; 7; 8; 9; 10] [] : pmesh nat nat).
Proof. reflexivity. Qed.

(** ** C34 *)
(** A mesh with UVs (one per corner, no empty polygon, numbers within int) survives the round trip unchanged. *)
Theorem C34_obj_with_uvs_partial : forall (P U : Type) (m : pmesh P U), hasParam m = true -> uvsMatch m -> (forall f, In f (polys m) -> f <> []) ->
  (forall f i, In f (polys m) -> In i f -> (Z.of_nat (i + 1) <= 2147483647)%Z) -> (Z.of_nat (length (concat (polys m))) <= 2147483647)%Z ->
  readObj (writeObj m) = Ok m.
Proof. exact @obj_uv. Qed.
Print Assumptions C34_obj_with_uvs_partial.
(** Without UVs, polygons and positions survive. *)
Theorem C34_obj_without_uvs_partial : forall (P U : Type) (m : pmesh P U), hasParam m = false ->
  (forall f i, In f (polys m) -> In i f -> (Z.of_nat (i + 1) <= 2147483647)%Z) ->
  exists m', readObj (writeObj m) = Ok m' /\ polys m' = polys m /\ verts m' = verts m.
Proof. intros P U m H1 H2. rewrite (obj_no m H1 H2). eexists. split; [reflexivity|]. auto. Qed.
Print Assumptions C34_obj_without_uvs_partial.
(** But the mesh read back claims to have a parameterization whenever some polygon is non-empty: the last clause of the
    property is false for every such mesh. *)
Theorem C34_parameterization_refuted : forall (P U : Type) (m : pmesh P U), hasParam m = false -> (exists f, In f (polys m) /\ f <> []) ->
  (forall f i, In f (polys m) -> In i f -> (Z.of_nat (i + 1) <= 2147483647)%Z) ->
  exists m', readObj (writeObj m) = Ok m' /\ hasParam m' = true.
Proof.
  intros P U m H1 (f & F & N) H2. rewrite (obj_no m H1 H2). eexists. split; [reflexivity|]. unfold hasParam. simpl.
  assert (I : In f (filter nonempty (polys m))). { apply filter_In. split; auto. destruct f; auto. }
  destruct (filter nonempty (polys m)); [easy|auto].
Qed.
Print Assumptions C34_parameterization_refuted.
Definition ex34 : pmesh nat nat := mkP [[0; 1; 2]; [2; 1; 3; 0]] [5; 6; 7; 8] [[1; 2; 3]; [4; 5; 6; 7]].
Example C34_example : hasParam ex34 = true /\ uvsMatch ex34 /\ readObj (writeObj ex34) = Ok ex34
  /\ readObj (writeObj (mkP (polys ex34) (verts ex34) [] : pmesh nat nat)) = Ok (mkP (polys ex34) (verts ex34) [[]; []]).
Proof. split; [reflexivity|]. split; [right; reflexivity|]. split; vm_compute; reflexivity. Qed.
