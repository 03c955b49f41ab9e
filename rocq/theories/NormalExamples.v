(** Concrete curves: witnesses and counterexamples for C38 and C61 *)
From Verif Require Import Base MeshModel MeshSpec MeshBase MeshCheck MeshBuildModel MeshExamples NormalModel NormalSpec NormalProofs NormalCheck NormalTrace.
Open Scope Z_scope.
(** five triangles, three of them around vertex 3 *)
Definition hook := built [[0;1;2];[1;0;3];[0;5;3];[5;1;3];[0;2;4]].
Definition hook_coords := [2;0;1;1;1;0;1;0;0;0].
Lemma hook_valid : Valid hook. Proof. apply validb_Valid. vm_compute. reflexivity. Qed.
Lemma hook_curves : Curves hook hook_coords. Proof. apply curvesb_ok. vm_compute. reflexivity. Qed.
(** one triangle, an arc from the edge 01 to vertex 2 *)
Definition tri := built [[0;1;2]].
Lemma tri_valid : Valid tri. Proof. apply validb_Valid. vm_compute. reflexivity. Qed.
Lemma tri_curves : Curves tri [1;0;0]. Proof. apply curvesb_ok. vm_compute. reflexivity. Qed.
(** two closed curves on the tetrahedron *)
Definition tet_coords := [5;3;2;5;3;2].
Lemma tet_curves : Curves tet tet_coords. Proof. apply curvesb_ok. vm_compute. reflexivity. Qed.
Lemma step_continues m coords he index h i : Valid m -> Curves m coords -> crossing m coords (he, index) -> stepTopologicalCurve m coords he index = Ok (h, i, false) -> continues m coords (he, index) (h, i).
Proof. intros V C K S. destruct (step_main m coords he index V C K) as [(_ & h' & i' & S')|(h' & i' & A & S' & _)]; [congruence|]. rewrite S in S'. injection S' as -> ->. exact A. Qed.
Lemma step_ends m coords he index h i : Valid m -> Curves m coords -> crossing m coords (he, index) -> stepTopologicalCurve m coords he index = Ok (h, i, true) -> ends m coords (he, index).
Proof. intros V C K S. destruct (step_main m coords he index V C K) as [(A & _)|(h' & i' & A & S' & _)]; [exact A|congruence]. Qed.
Lemma slip_example : exists m coords he index l e, Valid m /\ Curves m coords /\ crossing m coords (he, index) /\ ~ ext m he /\
  chained m coords ((he, index) :: l) /\ e = last l (he, index) /\ ends m coords e /\
  forall fuel, (10 <= fuel)%nat -> topologicalTrace fuel m coords he index = Ok ((he, index) :: l ++ [(he, index)]).
Proof.
  exists hook, hook_coords, 0, 0, [(6, 0); (12, 0); (9, 0); (1, 0)], (1, 0). pose proof hook_valid as V. pose proof hook_curves as C.
  split; auto. split; auto. split; [conc|]. split; [conc|].
  assert (continues hook hook_coords (0, 0) (6, 0)) by (apply step_continues; auto; conc).
  assert (continues hook hook_coords (6, 0) (12, 0)) by (apply step_continues; auto; conc).
  assert (continues hook hook_coords (12, 0) (9, 0)) by (apply step_continues; auto; conc).
  assert (continues hook hook_coords (9, 0) (1, 0)) by (apply step_continues; auto; conc).
  split.
  { intros l1 a b l2 E. do 4 (destruct l1 as [|? l1]; cbn in E; [injection E as <- <- _; assumption|injection E as <- E]). destruct l1 as [|? [|? ?]]; discriminate. }
  split; [reflexivity|]. split; [eapply step_ends; auto; [conc|vm_compute; reflexivity]|].
  intros fuel F. apply trace_mono with 10%nat; auto.
Qed.
Lemma boundary_example : exists m coords he index d, Valid m /\ Curves m coords /\ crossing m coords (he, index) /\ ext m he /\ ends m coords (he, index) /\
  forall fuel, (1 <= fuel)%nat -> topologicalTrace fuel m coords he index = Ok [(he, index); d].
Proof.
  exists tri, [1;0;0], 1, 0, (0, 0). pose proof tri_valid as V. pose proof tri_curves as C. split; auto. split; auto. split; [conc|]. split; [conc|].
  split; [eapply step_ends; auto; [conc|vm_compute; reflexivity]|]. intros fuel F. apply trace_mono with 1%nat; auto.
Qed.
