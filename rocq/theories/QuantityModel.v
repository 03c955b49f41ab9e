(** Model of the managed-quantity mechanism:
    include/geometrycentral/utilities/dependent_quantity.{h,ipp} and
    src/surface/base_geometry_interface.cpp (refreshQuantities, purgeQuantities). *)
From Verif Require Import Base.

Section Quantities.
(** [X]: the geometric input (positions, edge lengths, ...); [V]: values of quantities.
    [deps i]: the quantities on which the compute function of quantity i calls ensureHave() (e.g.
    intrinsic_geometry_interface.cpp, each computeXxx starts with the ensureHave calls of what it uses);
    [F i x vs]: what that compute function stores, from the input and the buffers of its dependencies. *)
Variables (X V : Type) (deps : nat -> list nat) (F : nat -> X -> list V -> V).

(** class DependentQuantity / DependentQuantityD, dependent_quantity.h:16-60.
    [buf]: content of *dataBuffer, None when cleared or never filled. *)
Record cell := mkCell {
  computed : bool; requireCount : Z; clearable : bool; hasBuffer : bool; buf : option V }.

(** the interface: its input and its [quantities] list *)
Record iface := mkIface { input : X; cells : list cell }.

Definition set_cell (g : iface) (i : nat) (c : cell) : res iface :=
  let* cs := wr (cells g) i c in Ok {| input := input g; cells := cs |}.

(** buffers of the dependencies, read by the compute function; reading an empty buffer is UB *)
Definition read_buf (g : iface) (d : nat) : res V :=
  let* c := rd (cells g) d in match buf c with Some v => Ok v | None => UB end.

(** the ensureHave() calls at the start of a compute function, in order *)
Fixpoint ensureAll (ensure : iface -> nat -> res (iface * list nat)) (ds : list nat) (g : iface)
  : res (iface * list nat) :=
  match ds with
  | [] => Ok (g, [])
  | d :: ds' =>
      let* (g', l) := ensure g d in
      let* (g'', l') := ensureAll ensure ds' g' in Ok (g'', l ++ l')
  end.

(** DependentQuantity::ensureHave, dependent_quantity.ipp:9-20. evaluateFunc is: ensureHave each dependency in
    turn, then compute and store. The log lists the compute callbacks in order of completion. *)
Fixpoint ensureHave (fuel : nat) (g : iface) (i : nat) : res (iface * list nat) :=
  match fuel with
  | O => UB
  | S fuel' =>
      let* c := rd (cells g) i in
      if computed c then Ok (g, [])
      else
        let* (g1, log) := ensureAll (ensureHave fuel') (deps i) g in
        let* vs := mapM (read_buf g1) (deps i) in
        let* c1 := rd (cells g1) i in
        let* g2 := set_cell g1 i {| computed := true; requireCount := requireCount c1; clearable := clearable c1;
                                    hasBuffer := hasBuffer c1; buf := Some (F i (input g1) vs) |} in
        Ok (g2, log ++ [i])
  end.

Definition depth (g : iface) : nat := S (length (cells g)).

(** ensureHaveIfRequired, dependent_quantity.ipp:3-7 *)
Definition ensureHaveIfRequired (g : iface) (i : nat) : res iface :=
  let* c := rd (cells g) i in
  if Z.ltb 0 (requireCount c) then let* (g', _) := ensureHave (depth g) g i in Ok g' else Ok g.

(** require, dependent_quantity.ipp:22-25 *)
Definition require (g : iface) (i : nat) : res iface :=
  let* c := rd (cells g) i in
  let* g1 := set_cell g i {| computed := computed c; requireCount := requireCount c + 1; clearable := clearable c;
                             hasBuffer := hasBuffer c; buf := buf c |} in
  let* (g2, _) := ensureHave (depth g1) g1 i in Ok g2.

(** unrequire, dependent_quantity.ipp:27-34. The boolean tells whether std::logic_error was thrown; the state
    after the throw is returned too, since the assignment [requireCount = 0] after the throw never runs. *)
Definition unrequire (g : iface) (i : nat) : res (iface * bool) :=
  let* c := rd (cells g) i in
  let n := (requireCount c - 1)%Z in
  let* g1 := set_cell g i {| computed := computed c; requireCount := n; clearable := clearable c;
                             hasBuffer := hasBuffer c; buf := buf c |} in
  Ok (g1, Z.ltb n 0).

(** clearIfNotRequired, dependent_quantity.ipp:84-90. clearBuffer on scalars leaves the old number in place; the
    model forgets it, which is the weaker guarantee. *)
Definition clear_cell (c : cell) : cell :=
  if clearable c && Z.leb (requireCount c) 0 && hasBuffer c && computed c
  then {| computed := false; requireCount := requireCount c; clearable := clearable c;
          hasBuffer := hasBuffer c; buf := None |}
  else c.

(** purgeQuantities, base_geometry_interface.cpp:36-40 *)
Definition purge (g : iface) : iface := {| input := input g; cells := map clear_cell (cells g) |}.

(** refreshQuantities, base_geometry_interface.cpp:27-34 *)
Definition uncompute (c : cell) : cell :=
  {| computed := false; requireCount := requireCount c; clearable := clearable c; hasBuffer := hasBuffer c; buf := buf c |}.
Definition refresh (g : iface) : res iface :=
  let g0 := {| input := input g; cells := map uncompute (cells g) |} in
  foldM ensureHaveIfRequired (seq 0 (length (cells g))) g0.

(** Calls a client can make. SetInput: the user overwrites the input data (e.g. inputVertexPositions). *)
Inductive q_op := Require_ (i : nat) | Unrequire_ (i : nat) | Purge_ | Refresh_ | SetInput (x : X).

Definition q_step (g : iface) (o : q_op) : res iface :=
  match o with
  | Require_ i => require g i
  | Unrequire_ i => let* (g', _) := unrequire g i in Ok g'   (* the caller may catch the exception and go on *)
  | Purge_ => Ok (purge g)
  | Refresh_ => refresh g
  | SetInput x => Ok {| input := x; cells := cells g |}
  end.

Definition q_run (ops : list q_op) (g : iface) : res iface := foldM q_step ops g.

(** state after construction: nothing computed, nothing required; per-quantity flags as given *)
Definition q_init (x : X) (flags : list (bool * bool)) : iface :=
  {| input := x;
     cells := map (fun f => {| computed := false; requireCount := 0; clearable := fst f; hasBuffer := snd f; buf := None |}) flags |}.
End Quantities.

Arguments mkCell {V}. Arguments computed {V}. Arguments requireCount {V}. Arguments clearable {V}.
Arguments hasBuffer {V}. Arguments buf {V}.
Arguments mkIface {X V}. Arguments input {X V}. Arguments cells {X V}.
Arguments Require_ {X}. Arguments Unrequire_ {X}. Arguments Purge_ {X}. Arguments Refresh_ {X}. Arguments SetInput {X}.
