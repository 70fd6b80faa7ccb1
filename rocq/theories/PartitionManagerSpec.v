(** The simulation spaces the PartitionManager is meant for. *)
From Verif Require Import Base CoordModel CoordSpec RegionModel CoordFacts HaloSpec PartitionManagerModel.

(** [setting d sp I E w]: [sp] is a simulation space of dimension [S d] with
    cells [I] and neighbourhood [E], fit for ghost zones of width [w].
    - A regular grid, no axis of which is shorter than [w].
    - An unstructured grid of nodes [0, ..., n - 1] with edges [adj]. The
      manufactured adjacency has all edges leaving a Region's nodes, the
      reverse adjacency all those leading to them; if [w > 1], also the edges
      leaving all other nodes need to be there. *)
Inductive setting : nat -> space -> (coord -> Prop) -> neigh -> nat -> Prop :=
| setting_regular d dim t w :
    length dim = S d -> length t = S d -> Forall (fun n => 0 < n) dim -> (1 <= w)%nat ->
    Forall (fun n => Z.of_nat w <= n) dim ->
    setting d (Regular dim t) (in_grid dim) (moore d dim t) w
| setting_unstructured n adjm radjm adj w :
    (1 <= w)%nat ->
    (forall x y, 0 <= x < n -> In y (adj x) -> 0 <= y < n) ->
    (forall r x, reg_count r [x] = Some true -> forall y, In y (adjm r x) <-> In y (adj x)) ->
    (forall r x, reg_count r [x] = Some true -> forall y, In y (radjm r x) <-> 0 <= y < n /\ In x (adj y)) ->
    (w = 1%nat \/ forall r x, 0 <= x < n -> forall y, In y (adjm r x) <-> In y (adj x)) ->
    setting 0 (Unstructured adjm radjm) (in_grid [n]) (linked adj) w.

(** The cells of the [k]-th Region of a vector. *)
Definition at_level (d : nat) (l : list indices) (k : nat) (c : coord) : Prop :=
  exists r, nth_error l k = Some r /\ inr d r c.
