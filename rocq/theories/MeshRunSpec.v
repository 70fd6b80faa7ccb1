(** Specification vocabulary for simulations on unstructured meshes: each
    node of the mesh is a ContainerCell's element, the cells are those of an
    UnstructuredGridMesher. *)
From Coq Require Import QArith.
From Verif Require Import Base CoordModel CoordSpec GridModel ArrayModel ParamModel GridSpec BoxModel MesherModel MesherSpec MultiModel MultiSpec.
Open Scope Z_scope.

(** The nodes' states, by ID. *)
Definition nodes (V : Type) : Type := Z -> option V.

(** All nodes can be seen from everywhere. *)
Definition whole {V} (S : nodes V) (v : V) : view V := mkView (fun _ => S) (fun _ _ => v) (fun _ => []).

(** A node's update() asks for those nodes only which satisfy [P], nothing else. *)
Fixpoint asks {V} (P : Z -> Prop) (S : nodes V) (k : kernel V) : Prop :=
  match k with
  | KDone _ | KRaise => True
  | KId m id k' => m = O /\ P id /\ asks P S (k' (S id))
  | _ => False
  end.

(** A node may ask for itself and its neighbors. *)
Definition within_reach (neighbors : list (list Z)) (i j : Z) : Prop := j = i \/ exists ns, vec_get neighbors i = Some ns /\ In j ns.

(** One step of all nodes at once. *)
Definition advance {V} (kern : V -> kernel V) (S : nodes V) : nodes V :=
  fun id => match S id with Some v => fst (eval (whole S v) (kern v)) | None => None end.

(** The nodes are points of the mesh and know their IDs; their update()s don't throw, keep
    the ID, and only ask for neighbors. *)
Definition well_behaved {V} (points : list (list Q)) (neighbors : list (list Z)) (key : V -> Z) (kern : V -> kernel V) (S : nodes V) : Prop :=
  forall id v, S id = Some v -> key v = id /\ (exists p, vec_get points id = Some p) /\
    asks (within_reach neighbors id) S (kern v) /\ exists v', fst (eval (whole S v) (kern v)) = Some v' /\ key v' = id.

(** The grid stores each node in the cell which the mesher yields for its
    position, and nothing else. *)
Definition stores {N V} (points : list (list Q)) (m : mesher) (g : place -> list (member N V)) (S : nodes V) : Prop :=
  (exists c, g None = [MContainer c] /\ proper c []) /\
  forall x, in_grid (me_logical m) x -> exists c items, g (Some x) = [MContainer c] /\ proper c items /\
    forall id v, In (id, v) items <-> S id = Some v /\ exists p, vec_get points id = Some p /\ logical_coord exact m p = Some x.

(** One update of the whole grid. *)
Definition cells_step {N V} (t : topology) (dim : coord) (A : arith N) (pos : V -> list N) (cap : nat -> option nat) (kern : nat -> nat -> V -> kernel V) (nano : nat)
    (g g' : place -> list (member N V)) : Prop :=
  g' None = g None /\
  forall x, in_grid dim x -> multi_update g (cell_hood t dim x) (length dim) A pos cap kern nano = Some (Done (g' (Some x))).

(** Updates in a row, with the nano steps given. *)
Fixpoint cells_run {N V} (t : topology) (dim : coord) (A : arith N) (pos : V -> list N) (cap : nat -> option nat) (kern : nat -> nat -> V -> kernel V) (nanos : list nat)
    (g g' : place -> list (member N V)) : Prop :=
  match nanos with
  | [] => g' = g
  | nano :: nanos' => exists g1, cells_step t dim A pos cap kern nano g g1 /\ cells_run t dim A pos cap kern nanos' g1 g'
  end.

Fixpoint advance_all {V} (kern : nat -> V -> kernel V) (nanos : list nat) (S : nodes V) : nodes V :=
  match nanos with [] => S | nano :: nanos' => advance_all kern nanos' (advance (kern nano) S) end.
