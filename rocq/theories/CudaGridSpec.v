(** Specification vocabulary for grids on the device. *)
From Coq Require Import Permutation.
From Verif Require Import Base RegionSpec RegionModel RegionRep RegionIterModel HaloSpec CoordModel CoordSpec PatchModel GridModel GridSpec StencilModel UpdateModel UpdateSpec
  CudaSpec CudaGridModel.

(** The coordinates a CUDAGrid may be accessed with: those of its box and of
    the edge; if it is topologically correct, those which denote a cell in the
    box. *)
Definition cuda_coord (t : topology) (correct : bool) (b : box) (topo : coord) (c : coord) : Prop :=
  length c = length t /\
  if correct then
    close_by topo (zsub c (b_origin b)) /\
    forall c', denotes t topo (zsub c (b_origin b)) = Some c' -> in_grid (b_dim b) c'
  else in_box b c \/ denotes t (b_dim b) (zsub c (b_origin b)) = None.

(** A set of coordinates, displaced by [off], can be copied row by row: all
    coordinates denote cells in the box, and coordinates which are adjacent in
    a row denote adjacent cells. *)
Definition rows_ok (t : topology) (correct : bool) (b : box) (topo : coord) (R : coord -> Prop) (off : coord) : Prop :=
  (forall c, R c -> cuda_coord t correct b topo (zadd c off) /\
     exists c', ddenotes t correct b topo (zadd c off) = Some c' /\ in_grid (b_dim b) c') /\
  (forall pre x c', R (pre ++ [x]) -> R (pre ++ [x + 1]) -> ddenotes t correct b topo (zadd (pre ++ [x]) off) = Some c' ->
     ddenotes t correct b topo (zadd (pre ++ [x + 1]) off) = Some (removelast c' ++ [last c' 0 + 1])).

(** Different coordinates denote different cells. *)
Definition apart (t : topology) (correct : bool) (b : box) (topo : coord) (R : coord -> Prop) (off : coord) : Prop :=
  forall a c, R a -> R c -> ddenotes t correct b topo (zadd a off) = ddenotes t correct b topo (zadd c off) -> a = c.

Definition no_offset (t : topology) : coord := map (fun _ => 0) t.

(** The states which can be reached by writing and by loading regions, from
    buffers or other grids. *)
Inductive cg_reach {C : Type} (t : topology) (correct : bool) (b : box) (topo : coord) : cgrid C -> Prop :=
| creach_make dflt edge : cg_reach t correct b topo (cg_make b dflt edge topo)
| creach_op g o g' : cg_reach t correct b topo g -> access_ok (cuda_coord t correct b topo) (in_box b) o ->
    cg_op t correct g o = Some g' -> cg_reach t correct b topo g'
| creach_load g (n : nat) (r : indices) (off : coord) (vs : list C) g' : cg_reach t correct b topo g -> length t = S n -> rvalid n r -> length off = S n ->
    rows_ok t correct b topo (inr n r) off -> cg_load t correct g r off vs = Done g' -> cg_reach t correct b topo g'
| creach_load_grid g bh (n : nat) (r : indices) ss d g' : cg_reach t correct b topo g -> length t = S n -> rvalid n r ->
    setup_ok t correct bh topo -> dg_reach t correct bh topo d -> reg_streaks r = Some ss ->
    rows_ok t correct b topo (inr n r) (no_offset t) -> rows_ok t correct bh topo (inr n r) (no_offset t) ->
    cg_load_grid t correct d g ss = Some g' -> cg_reach t correct b topo g'.

(** The launch of a kernel: the order in which the threads take effect, each
    given by its block. Every thread of every block occurs once. *)
Definition launch_order (grid : Z) (block : nat) (order : list Z) : Prop := Permutation (kernel_threads grid block) order.

(** Doing the same once more doesn't change anything. *)
Definition repeatable {C} (upd : nat -> list C -> C -> C) : Prop := forall nano vs v, upd nano vs (upd nano vs v) = upd nano vs v.

(** What a cell's neighbor on the grid is: a cell of the box or the edge. *)
Definition box_value {C} (t : topology) (b : box) (f : coord -> C) (edge : C) (c : coord) : C :=
  match denotes t (b_dim b) (zsub c (b_origin b)) with
  | Some rel => f (zadd rel (b_origin b))
  | None => edge
  end.

(** The neighbors of a cell are at most one period outside of the box. *)
Definition near_box (st : stencil) (b : box) (c : coord) : Prop :=
  Forall (fun c' => close_by (b_dim b) (zsub c' (b_origin b))) (neighbors st c).
