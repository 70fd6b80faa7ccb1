(** Specification vocabulary for graph partitioning. *)
From Verif Require Import Base RegionModel CoordModel CoordSpec PartitionSpec ScotchModel.

(** ** Graphs *)

(** Elements [a] up to, but excluding [b]. *)
Definition slice (l : list Z) (a b : Z) : list Z := firstn (Z.to_nat (b - a)) (skipn (Z.to_nat a) l).

(** SCOTCH's format for a directed graph with vertices 0 to n - 1: the edges of
    vertex [i] are found from [vert i] up to [vert (i + 1)]. *)
Definition describes (g : graph) (n : Z) (E : Z -> Z -> Prop) : Prop :=
  let vert i := nth (Z.to_nat i) (gr_vert g) 0 in
  Z.of_nat (length (gr_vert g)) = n + 1 /\ vert 0 = 0 /\
  vert n = gr_num g /\ gr_num g = Z.of_nat (length (gr_edge g)) /\
  forall i, 0 <= i < n ->
    0 <= vert i <= vert (i + 1) /\ vert (i + 1) <= gr_num g /\
    NoDup (slice (gr_edge g) (vert i) (vert (i + 1))) /\
    forall j, In j (slice (gr_edge g) (vert i) (vert (i + 1))) <-> E i j.

(** ** Grids *)

(** The number of a cell, x varies fastest. *)
Fixpoint cell_no (acc : Z) (dims c : coord) : Z :=
  match dims, c with n :: dims', x :: c' => cell_no (acc * n + x) dims' c' | _, _ => acc end.

(** Cells which have a face in common: coordinates differ by one along one
    axis. *)
Fixpoint distance (c c' : coord) : Z :=
  match c, c' with x :: r, x' :: r' => Z.abs (x - x') + distance r r' | _, _ => 0 end.

Definition face_neighbors (dims : coord) (i j : Z) : Prop :=
  exists c c', in_grid dims c /\ in_grid dims c' /\ cell_no 0 dims c = i /\ cell_no 0 dims c' = j /\ distance c c' = 1.

(** ** Parts *)

(** SCOTCH assigns each of the [n] vertices to one of the [num] parts. *)
Definition parts_ok (n : Z) (num : nat) (parts : list Z) : Prop :=
  Z.of_nat (length parts) = n /\ Forall (fun p => 0 <= p < Z.of_nat num) parts.

Definition part_of (parts : list Z) (i : Z) : Z := nth (Z.to_nat i) parts (-1).
