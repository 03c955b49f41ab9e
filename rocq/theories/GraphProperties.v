(** C39, C40: shortest paths and balls in the edge graph *)
From Coq Require Import QArith Qround.
From Verif Require Import Base MeshModel MeshSpec MeshBuildModel MeshHistoryModel MeshHistorySpec MeshHistoryProperties GraphModel GraphSpec GraphProofs.
Open Scope Z_scope.

(** C39. For every mesh, every weights obeying WLaws and all lengths that are not less than zero: the search returns,
    the empty list exactly when start and goal coincide or no path joins them, and otherwise a path no other path is
    shorter than; the requests for edge lengths are balanced. *)
Theorem C39_shortest W m len c s g : WLaws W -> Valid m -> liveV m s -> liveV m g ->
  (forall h, liveH m h -> wle W (w0 W) (len (edge h)) = true) ->
  exists p, shortestEdgePath W m len c s g = Ok (p, c) /\
    (p = [] <-> s = g \/ ~ exists q, isPath m s q g) /\
    (p <> [] -> shortest m W len s p g).
Proof.
  intros L V Ls _ P. destruct (shortestEdgePath_ok W L m V len P s Ls c g) as (p & E & A & B & C). exists p. split; [exact E|]. split; [|exact B]. split.
  - intros N. destruct (C N) as [X|X]; [left; exact X|right]. intros (q & Q). exact (X q Q).
  - intros [X|X]; [exact (A X)|]. destruct p as [|h p]; [reflexivity|]. exfalso. apply X. exists (h :: p). apply B. discriminate.
Qed.
Print Assumptions C39_shortest.
(** the laws hold of exact integers and rationals, and of any number format with a monotone rounding that fixes the
    numbers of the format *)
Theorem C39_arithmetic : WLaws wZ /\ WLaws wQ /\
  forall (F : Q -> Prop) zero rnd into, (forall x y, (x <= y)%Q -> (rnd x <= rnd y)%Q) -> (forall x, F x -> (rnd x == x)%Q) -> WLaws (wF F zero rnd into).
Proof. split; [exact wZ_laws|]. split; [exact wQ_laws|exact wF_laws]. Qed.
Print Assumptions C39_arithmetic.

(** C40. The map returned holds each vertex once; a vertex it holds is held with the length of a shortest path to it, which
    is within the radius unless the vertex is the start; every vertex a path within the radius leads to is held. *)
Theorem C40_ball_partial W m len c s rad : WLaws W -> Valid m -> liveV m s -> (forall h, liveH m h -> wle W (w0 W) (len (edge h)) = true) ->
  exists dist c', vertexDijkstraDistanceWithinRadius W m len c s rad = Ok (dist, c') /\ NoDup (map fst dist) /\
    (forall v d, In (v, d) dist -> exists p, shortest m W len s p v /\ d = pathLen W len p /\ (v = s \/ wle W d rad = true)) /\
    (forall v p, isPath m s p v -> wle W (pathLen W len p) rad = true -> In v (map fst dist)) /\
    In s (map fst dist).
Proof. intros L V Ls P. destruct (ball_ok W L m V len P s Ls rad c) as (dist & H). exists dist, (c + 1). exact H. Qed.
Print Assumptions C40_ball_partial.
(** the second half of C40 is false: edge lengths are required and never released *)
Theorem C40_requirements_refuted W m len c s rad : WLaws W -> Valid m -> liveV m s -> (forall h, liveH m h -> wle W (w0 W) (len (edge h)) = true) ->
  exists dist, vertexDijkstraDistanceWithinRadius W m len c s rad = Ok (dist, c + 1) /\ c + 1 <> c.
Proof. intros L V Ls P. destruct (ball_ok W L m V len P s Ls rad c) as (dist & E & _). exists dist. split; [exact E|lia]. Qed.
Print Assumptions C40_requirements_refuted.

(** two squares sharing the edge 3-2: the direct edge 3-0 is longer than the way around, and the ball of radius 4 leaves
    out two vertices *)
Definition strip_len (e : Z) : Z := nth (Z.to_nat e) [1; 2; 9; 8; 1; 1; 2] 0.
Lemma strip_pos h : liveH strip h -> wle wZ (w0 wZ) (strip_len (edge h)) = true.
Proof.
  intros ((A & B) & _). unfold strip_len. cbn. assert (edge h < 7) as C. { assert (heFill strip = 14) as F by reflexivity. unfold edge. lia. } assert (0 <= edge h) as D by (unfold edge; lia). clear - C D.
  assert (edge h = 0 \/ edge h = 1 \/ edge h = 2 \/ edge h = 3 \/ edge h = 4 \/ edge h = 5 \/ edge h = 6) as X by lia.
  decompose [or] X; (match goal with H : edge h = _ |- _ => rewrite H end); reflexivity.
Qed.
Lemma strip_liveV v : 0 <= v < 6 -> liveV strip v.
Proof.
  intros H. assert (v = 0 \/ v = 1 \/ v = 2 \/ v = 3 \/ v = 4 \/ v = 5) as X by lia. decompose [or] X; subst; (split; [split; [lia|reflexivity]|vm_compute; discriminate]).
Qed.
Example C39_witness : WLaws wZ /\ Valid strip /\ liveV strip 0 /\ liveV strip 3 /\ (forall h, liveH strip h -> wle wZ (w0 wZ) (strip_len (edge h)) = true) /\
  shortestEdgePath wZ strip strip_len 5 0 3 = Ok ([0; 2; 8; 10; 12], 5).
Proof.
  split; [exact wZ_laws|]. split; [exact (sr_valid _ strip_start)|]. split; [apply strip_liveV; lia|]. split; [apply strip_liveV; lia|]. split; [exact strip_pos|].
  vm_compute. reflexivity.
Qed.
(** truncation to integers is a rounding *)
Definition isInt (x : Q) : Prop := exists z, x = inject_Z z.
Example C39_rounded_witness : exists zero into, WLaws (wF isInt zero (fun x => inject_Z (Qfloor x)) into).
Proof.
  exists (ex_intro (fun z => 0%Q = inject_Z z) 0 eq_refl), (fun x => ex_intro (fun z => inject_Z (Qfloor x) = inject_Z z) (Qfloor x) eq_refl). apply wF_laws.
  - intros x y H. rewrite <- Zle_Qle. apply Qfloor_resp_le. exact H.
  - intros x (z & ->). rewrite Qfloor_Z. reflexivity.
Qed.
Example C40_witness : WLaws wZ /\ Valid strip /\ liveV strip 0 /\ (forall h, liveH strip h -> wle wZ (w0 wZ) (strip_len (edge h)) = true) /\
  vertexDijkstraDistanceWithinRadius wZ strip strip_len 5 0 4 = Ok ([(4, 4); (2, 3); (1, 1); (0, 0)], 6).
Proof.
  split; [exact wZ_laws|]. split; [exact (sr_valid _ strip_start)|]. split; [apply strip_liveV; lia|]. split; [exact strip_pos|]. vm_compute. reflexivity.
Qed.
