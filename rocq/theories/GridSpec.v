(** Specification vocabulary for grids: which cell a coordinate denotes, and
    what has been written to it last. *)
From Verif Require Import Base RegionSpec RegionModel RegionRep HaloSpec PatchModel CoordModel CoordSpec GridModel.

(** A place where a cell may be stored: at a coordinate of the grid, or the
    edge cell ([None]). *)
Definition place := option coord.

(** The place a coordinate denotes on a grid of the given dimensions:
    wrapping axes are taken modulo the extent, anything outside along another
    axis is the edge. *)
Fixpoint denotes (t : topology) (dim c : coord) : place :=
  match t, dim, c with
  | [], [], [] => Some []
  | w :: t', n :: dim', x :: c' =>
      match denotes t' dim' c' with
      | Some r => if w then Some (x mod n :: r) else if (0 <=? x) && (x <? n) then Some (x :: r) else None
      | None => None
      end
  | _, _, _ => None
  end.

Definition place_dec (a b : place) : {a = b} + {a <> b}.
Proof. decide equality. apply (list_eq_dec Z.eq_dec). Defined.

(** The last value written to a place, [init] if there is none. *)
Definition last_written {C} (init : place -> C) (ws : list (place * C)) (p : place) : C :=
  fold_left (fun acc w => if place_dec (fst w) p then snd w else acc) ws (init p).

(** The writes performed by an access, given the meaning of coordinates. *)
Definition writes {C} (den : coord -> place) (o : gop C) : list (place * C) :=
  match o with
  | GSet c v => [(den c, v)]
  | GSetStreak s vs => combine (map den (streak_coords s)) vs
  | GSetEdge v => [(None, v)]
  end.

Definition fresh {C} (dflt edge : C) (p : place) : C := match p with Some _ => dflt | None => edge end.

(** The contents of a grid after a sequence of accesses. *)
Definition contents {C} (den : coord -> place) (dflt edge : C) (l : list (gop C)) : place -> C :=
  last_written (fresh dflt edge) (flat_map (writes den) l).

(** At most one period outside of the grid. *)
Fixpoint close_by (dim c : coord) : Prop :=
  match dim, c with
  | [], [] => True
  | n :: dim', x :: c' => - n <= x < 2 * n /\ close_by dim' c'
  | _, _ => False
  end.

(** Accesses whose coordinates all satisfy [P]; streaks come with as many
    cells as they have coordinates. *)
Definition access_ok {C} (Pc Ps : coord -> Prop) (o : gop C) : Prop :=
  match o with
  | GSet c _ => Pc c
  | GSetStreak s vs => s_x s <= s_e s /\ Forall Ps (streak_coords s) /\ length vs = length (streak_coords s)
  | GSetEdge _ => True
  end.

(** ** DisplacedGrid *)

(** A topologically correct grid is a part of a bigger one, of dimensions
    [topo], whose topology it obeys. Otherwise the box itself is subject to the
    topology. *)
Definition ddenotes (t : topology) (correct : bool) (b : box) (topo : coord) (c : coord) : place :=
  denotes t (if correct then topo else b_dim b) (zsub c (b_origin b)).

(** The coordinates a DisplacedGrid may be accessed with. *)
Definition reachable_coord (t : topology) (correct : bool) (b : box) (topo : coord) (c : coord) : Prop :=
  length c = length t /\
  if correct then
    close_by topo (zsub c (b_origin b)) /\
    forall c', denotes t topo (zsub c (b_origin b)) = Some c' -> in_grid (b_dim b) c'
  else close_by (b_dim b) (zsub c (b_origin b)).

(** The same for the coordinates of Streaks. *)
Definition reachable_in_streak (correct : bool) (b : box) (c : coord) : Prop :=
  if correct then in_box b c else length c = length (b_dim b) /\ close_by (b_dim b) (zsub c (b_origin b)).

(** A DisplacedGrid is set up consistently: non-empty, and not larger than the
    space it is a part of. *)
Definition setup_ok (t : topology) (correct : bool) (b : box) (topo : coord) : Prop :=
  t <> [] /\ length (b_origin b) = length t /\ length (b_dim b) = length t /\ Forall (fun n => 0 < n) (b_dim b) /\
  (correct = true -> Forall2 Z.le (b_dim b) topo).

(** The coordinates of a region, displaced by [off], denote cells inside of
    the box. Those of a topologically correct grid may lie on another period
    of the topology, provided that the region isn't wider than a period. *)
Definition transfer_ok (t : topology) (correct : bool) (b : box) (topo : coord) (R : coord -> Prop) (off : coord) : Prop :=
  if correct then
    (exists base, forall c, R c -> in_box (mkBox base topo) c) /\
    forall c, R c -> close_by topo (zsub (zadd c off) (b_origin b)) /\
      exists c', wraps_to t topo (zsub (zadd c off) (b_origin b)) c' /\ in_grid (b_dim b) c'
  else forall c, R c -> in_box b (zadd c off).

(** The states of a DisplacedGrid which can be reached by writing and by
    loading regions. *)
Inductive dg_reach {C} (t : topology) (correct : bool) (b : box) (topo : coord) : dgrid C -> Prop :=
| reach_make dflt edge : dg_reach t correct b topo (dg_make b dflt edge topo)
| reach_op d o d' : dg_reach t correct b topo d -> access_ok (reachable_coord t correct b topo) (reachable_in_streak correct b) o ->
    dg_op t correct d o = Some d' -> dg_reach t correct b topo d'
| reach_load d n r off vs d' : dg_reach t correct b topo d -> length t = S n -> rvalid n r -> length off = S n ->
    transfer_ok t correct b topo (inr n r) off -> dg_load t correct d r off vs = Some d' ->
    (forall cs, region_coords r = Some cs -> (length cs <= length vs)%nat) -> dg_reach t correct b topo d'.

(** The same for Grid. *)
Inductive grid_reach {C} (t : topology) (dim : coord) : vgrid C -> Prop :=
| greach_make dflt edge : grid_reach t dim (grid_make dim dflt edge)
| greach_op g o g' : grid_reach t dim g -> access_ok (close_by dim) (close_by dim) o ->
    grid_op t g o = Some g' -> grid_reach t dim g'
| greach_load g n r off vs g' : grid_reach t dim g -> length t = S n -> rvalid n r -> length off = S n ->
    (forall c, inr n r c -> in_grid dim (zadd c off)) -> grid_load t g r off vs = Some g' ->
    (forall cs, region_coords r = Some cs -> (length cs <= length vs)%nat) -> grid_reach t dim g'.

(** Grids as seen via the common interface. *)
Inductive view_of {C} : gview C -> Prop :=
| view_grid t dim g : dim <> [] -> length t = length dim -> Forall (fun n => 0 < n) dim -> grid_reach t dim g ->
    view_of (grid_view t g)
| view_displaced t correct b topo d : setup_ok t correct b topo -> dg_reach t correct b topo d ->
    view_of (dg_view t correct d).
