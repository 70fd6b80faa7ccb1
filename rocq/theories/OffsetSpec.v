(** Specification vocabulary for the placement of a node's grid. *)
From Verif Require Import Base RegionModel RegionRep CoordModel CoordSpec HaloSpec GridModel GridSpec UpdateModel UpdateSpec.

(** Two positions along an axis of the given extent denote the same cells. *)
Definition same_pos (wraps : bool) (n x y : Z) : Prop := if wraps then exists k, y = x + k * n else y = x.

Definition same_cell (t : topology) (dim c c' : coord) : Prop :=
  length c = length t /\ length c' = length t /\
  forall i, (i < length t)%nat -> same_pos (wraps_axis t i) (axis i dim) (axis i c) (axis i c').

(** All cells of a region can be stored in [w] slices, beginning at [a],
    along axis [i]. *)
Definition covers (d : nat) (r : indices) (t : topology) (dim : coord) (i : nat) (a w : Z) : Prop :=
  forall c, inr d r c -> exists y, same_pos (wraps_axis t i) (axis i dim) (axis i c) y /\ a <= y < a + w.

(** A node's region: valid, not empty, within the simulation area. *)
Definition node_region (d : nat) (t : topology) (sim : box) (r : indices) : Prop :=
  length t = S d /\ length (b_origin sim) = S d /\ length (b_dim sim) = S d /\
  rvalid d r /\ (exists c, inr d r c) /\ forall c, inr d r c -> in_box sim c.

(** What a coordinate denotes on the whole simulation area: a cell, or the
    edge ([None]). *)
Definition sim_place (t : topology) (sim : box) (c : coord) : option coord :=
  option_map (fun p => zadd p (b_origin sim)) (denotes t (b_dim sim) (zsub c (b_origin sim))).

Definition sim_read {C} (t : topology) (sim : box) (f : coord -> C) (edge : C) (c : coord) : C :=
  match sim_place t sim c with Some c' => f c' | None => edge end.

(** The last value written to a coordinate. *)
Definition last_value {C} (dflt : C) (ws : list (coord * C)) (c : coord) : C :=
  fold_left (fun acc w => if list_eq_dec Z.eq_dec (fst w) c then snd w else acc) ws dflt.

(** A DisplacedGrid located at the given box, with a cell for each of its
    coordinates. *)
Definition node_grid {C} (b : box) (topo : coord) (d : dgrid C) : Prop :=
  d_org d = b_origin b /\ d_topo d = topo /\ g_dim (d_grid d) = b_dim b /\ length (g_cells (d_grid d)) = Z.to_nat (prod (b_dim b)).

(** It holds the values of [f] in region [r], and the given edge cell. *)
Definition holds {C} (n : nat) (t : topology) (d : dgrid C) (r : indices) (f : coord -> C) (edge : C) : Prop :=
  (forall c, inr n r c -> dg_get t true d c = Some (f c)) /\ g_edge (d_grid d) = edge.
