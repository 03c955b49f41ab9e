(** SimplePolygonMesh::consistentlyOrientFaces(false), src/surface/simple_polygon_mesh.cpp:652-877. The ray casting done
    when outwardOrient is true is not modelled. *)
From Verif Require Import Base PolygonModel.

(** struct FaceSideEntry, :710-716 *)
Record entry := mkE { indA : nat; indB : nat; eF : nat; eLocal : nat; canon : bool }.
(** struct FaceSideNeighbor, :717-721: hasNeighbor = false is [None] *)
Definition neigh := option (nat * bool).

(** the entry list, :724-734 *)
Definition faceEntries (iF : nat) (face : list nat) : res (list entry) :=
  let D := length face in
  mapM (fun j => let* iV := rd face j in let* iVn := rd face ((j + 1) mod D) in
                 Ok (mkE (Nat.min iV iVn) (Nat.max iV iVn) iF j (iV <? iVn))) (seq 0 D).
Fixpoint allEntries (iF : nat) (ps : list (list nat)) : res (list entry) :=
  match ps with
  | [] => Ok []
  | f :: t => let* es := faceEntries iF f in let* r := allEntries (S iF) t in Ok (es ++ r)
  end.

(** matching key of two entries, :764 *)
Definition sameKey (e1 e2 : entry) : bool := (indA e1 =? indA e2) && (indB e1 =? indB e2).
(** the while loop advancing iEnd, :764-766: the entries after the first that match it, and what follows them *)
Fixpoint run (e : entry) (l : list entry) : list entry * list entry :=
  match l with
  | [] => ([], [])
  | x :: t => if sameKey x e then let (r, rest) := run e t in (x :: r, rest) else ([], l)
  end.

Definition setNeigh (nb : list (list neigh)) (e : entry) (x : neigh) : res (list (list neigh)) :=
  let* row := rd nb (eF e) in let* row := wr row (eLocal e) x in wr nb (eF e) row.
(** the loop pairing up entries, :757-787 *)
Fixpoint pairUp (fuel : nat) (l : list entry) (nb : list (list neigh)) : res (list (list neigh)) :=
  match fuel, l with
  | _, [] => Ok nb
  | O, _ => UB
  | S k, e :: t =>
    let (r, rest) := run e t in
    match r with
    | [o] =>
      let sameOrient := xorb (canon e) (canon o) in
      let* nb := setNeigh nb e (Some (eF o, sameOrient)) in
      let* nb := setNeigh nb o (Some (eF e, sameOrient)) in
      pairUp k rest nb
    | _ => pairUp k rest nb
    end
  end.

Record ost (U : Type) := mkO { oPolys : list (list nat); oUvs : list (list U); oDone : list bool }.
Arguments mkO {U}.
Arguments oPolys {U}.
Arguments oUvs {U}.
Arguments oDone {U}.

(** the neighbour loop, :822-833 *)
Definition pushNeighbors (done : list bool) (needsFlip : bool) (ns : list neigh) (q : list (nat * bool)) : res (list (nat * bool)) :=
  foldM (fun q n => match n with
                    | None => Ok q
                    | Some (jF, same) => let* d := rd done jF in if (d : bool) then Ok q else Ok (q ++ [(jF, Bool.eqb same needsFlip)])
                    end) ns q.
(** the while loop over the queue, :798-834 *)
Fixpoint patch {U} (fuel : nat) (hasUV : bool) (nb : list (list neigh)) (q : list (nat * bool)) (s : ost U) : res (ost U) :=
  match q with
  | [] => Ok s
  | (iF, needsFlip) :: q =>
    match fuel with
    | O => UB
    | S k =>
      let* d := rd (oDone s) iF in
      if (d : bool) then patch k hasUV nb q s
      else
        let* done := wr (oDone s) iF true in
        let* ps := (if needsFlip then let* p := rd (oPolys s) iF in wr (oPolys s) iF (rev p) else Ok (oPolys s)) in
        let* us := (if needsFlip then if hasUV then let* u := rd (oUvs s) iF in wr (oUvs s) iF (rev u) else Ok (oUvs s) else Ok (oUvs s)) in
        let* ns := rd nb iF in
        let* q := pushNeighbors done needsFlip ns q in
        patch k hasUV nb q (mkO ps us done)
    end
  end.

Definition consistentlyOrient {P U} (sortEntries : list entry -> list entry) (m : pmesh P U) : res (pmesh P U) :=
  let* es := allEntries 0 (polys m) in
  let sorted := sortEntries es in
  let* nb := pairUp (length sorted) sorted (map (fun f => repeat None (length f)) (polys m)) in
  let fuel := S (length es) in
  let* s := foldM (fun s start =>
      let* d := rd (oDone s) start in
      if (d : bool) then Ok s else patch fuel (hasParam m) nb [(start, false)] s)
    (seq 0 (length (polys m))) (mkO (polys m) (uvs m) (repeat false (length (polys m)))) in
  Ok (mkP (oPolys s) (verts m) (oUvs s)).
