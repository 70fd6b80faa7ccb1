(** Specification vocabulary for grids of boxes with particles. *)
From Coq Require Import QArith.
From Verif Require Import Base CoordModel CoordSpec GridSpec BoxModel.

(** The box contains the position: its lower faces belong to it, its upper
    faces don't. *)
Fixpoint contains (origin dimension p : list Q) : Prop :=
  match origin, dimension, p with
  | [], [], [] => True
  | o :: origin', d :: dimension', x :: p' => (o <= x < o + d)%Q /\ contains origin' dimension' p'
  | _, _, _ => False
  end.

(** Two cells are neighbours (or the same) if a step of at most 1 along each
    axis leads from one to the other. *)
Definition neighbours (t : topology) (dim c c' : coord) : Prop :=
  exists rel, length rel = length dim /\ Forall (fun x => -1 <= x <= 1) rel /\ denotes t dim (zadd c rel) = Some c'.

(** Wrapping axes have at least three cells, others at least one. *)
Fixpoint large_enough (t : topology) (dim : coord) : Prop :=
  match t, dim with
  | [], [] => True
  | w :: t', m :: dim' => (if w : bool then 3 <= m else 1 <= m) /\ large_enough t' dim'
  | _, _ => False
  end.

(** All coordinates of a grid. *)
Fixpoint all_coords (dim : coord) : list coord :=
  match dim with
  | [] => [[]]
  | m :: dim' => flat_map (fun x => map (cons (Z.of_nat x)) (all_coords dim')) (seq 0 (Z.to_nat m))
  end.

(** All particles of a grid, cell by cell. *)
Definition particles {N P} (dim : coord) (g : place -> boxcell N P) : list P := flat_map (fun c => bx_parts (g (Some c))) (all_coords dim).

Section Pos.
Context {P : Type}.
Variable pos : P -> list Q.

Definition holds (b : boxcell Q P) (p : P) : Prop := contains (bx_origin b) (bx_dim b) (pos p).

(** The cells don't overlap, the edge cell is empty, and each particle's
    position is covered by a neighbour of the cell which stores it. (Origins
    and dimensions have the same number of components by their types.) *)
Definition moderate (t : topology) (dim : coord) (g : place -> boxcell Q P) : Prop :=
  bx_parts (g None) = [] /\
  (forall c, in_grid dim c -> length (bx_origin (g (Some c))) = length (bx_dim (g (Some c)))) /\
  (forall c c' p, in_grid dim c -> in_grid dim c' -> holds (g (Some c)) p -> holds (g (Some c')) p -> c = c') /\
  (forall c p, in_grid dim c -> In p (bx_parts (g (Some c))) -> exists c', neighbours t dim c c' /\ holds (g (Some c')) p).

(** One update of the whole grid. *)
Definition grid_step (t : topology) (dim : coord) (A : ParamModel.arith Q) (cap : option nat) (pupd : nat -> list P -> P -> P) (nano : nat)
    (g g' : place -> boxcell Q P) : Prop :=
  g' None = g None /\
  forall c, in_grid dim c -> bx_update g (cell_hood t dim c) (length dim) A pos cap pupd nano = Some (ArrayModel.Done (g' (Some c))).

(** Any number of updates. Before those at nano step 0 the particles must not
    have moved too far. *)
Inductive grid_run (t : topology) (dim : coord) (A : ParamModel.arith Q) (cap : option nat) (pupd : nat -> list P -> P -> P) (g : place -> boxcell Q P) :
    (place -> boxcell Q P) -> Prop :=
| gr_none : grid_run t dim A cap pupd g g
| gr_step : forall nano g1 g2, grid_run t dim A cap pupd g g1 -> (nano = O -> moderate t dim g1) ->
    grid_step t dim A cap pupd nano g1 g2 -> grid_run t dim A cap pupd g g2.

End Pos.

(** Boxes of equal size, side by side. *)
Fixpoint tile (base size : list Q) (c : coord) : list Q :=
  match base, size, c with
  | b :: base', s :: size', x :: c' => (b + inject_Z x * s)%Q :: tile base' size' c'
  | _, _, _ => []
  end.
