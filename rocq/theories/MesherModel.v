(** UnstructuredGridMesher. Definitions only.

    Source: /repo/src/libgeodecomp/geometry/unstructuredgridmesher.h and
    /repo/src/libgeodecomp/geometry/floatcoord.h. The numbers are a parameter
    (see ParamModel): exact rationals or IEEE doubles. Coordinates and
    positions are lists, last dimension first. Integers are unbounded. [None]
    is undefined behaviour: accessing an element which doesn't exist, or
    converting a number to an integer which isn't finite. The default
    constructor (unstructuredgridmesher.h:25-26), which leaves all members 0, isn't
    modelled. *)
From Verif Require Import Base RegionOpsModel GridModel ParamModel MeshlessModel.

Section Mesher.
Context {N : Type} (A : arith N).
Variable dim : nat. (* DIM *)

(** [std::max] *)
Definition a_max (x y : N) : N := if a_lt A x y then y else x.

(** [floor], as an integer. *)
Definition a_floor (x : N) : option Z := obind (a_trunc A x) (fun z => Some (if a_lt A x (a_ofZ A z) then z - 1 else z)).

Definition one_half : N := a_div A (a_ofZ A 1) (a_ofZ A 2).

(** [round], as an integer: halfway cases are rounded away from zero. *)
Definition a_round (x : N) : option Z :=
  obind (a_trunc A x) (fun z =>
    let d := a_sub A x (a_ofZ A z) in
    Some (if a_le A one_half d then z + 1 else if a_le A d (a_sub A (a_ofZ A 0) one_half) then z - 1 else z)).

(** Componentwise operations of [FloatCoord]. *)
Fixpoint f_zip (f : N -> N -> N) (a b : list N) : list N :=
  match a, b with x :: a', y :: b' => f x y :: f_zip f a' b' | _, _ => [] end.

(** [abs] (floatcoord.h:75-80 and the like for 2D, 3D) *)
Definition f_abs (a : list N) : list N := map (a_abs A) a.

(** [operator-] (floatcoord.h:103-108), [max], [min] (220-230) *)
Definition f_sub : list N -> list N -> list N := f_zip (a_sub A).
Definition f_max : list N -> list N -> list N := f_zip a_max.
Definition f_min : list N -> list N -> list N := f_zip (a_min A).

(** [operator/] (floatcoord.h:146-152), whose components are to be converted
    to integers: dividing by zero yields infinity or NaN, for which that
    is undefined. *)
Fixpoint f_div (a b : list N) : option (list N) :=
  match a, b with
  | x :: a', y :: b' =>
      if a_le A y (a_ofZ A 0) && a_le A (a_ofZ A 0) y then None
      else option_map (cons (a_div A x y)) (f_div a' b')
  | _, _ => Some []
  end.

(** The members (unstructuredgridmesher.h:69-73) *)
Record mesher := mkMesher { me_logical : coord; me_cell : list N; me_grid : list N; me_min : list N; me_max : list N }.

(** Lines 94-97 *)
Fixpoint deltas (points : list (list N)) (p : list N) (ns : list Z) (acc : list N) : option (list N) :=
  match ns with
  | [] => Some acc
  | j :: ns' => obind (vec_get points j) (fun q => deltas points p ns' (f_max acc (f_abs (f_sub p q))))
  end.

(** The loop over the points (lines 93-101): maxDelta, minCoord and
    maxCoord *)
Fixpoint extents (points : list (list N)) (ps : list (list N)) (neighbors : list (list Z)) (acc : list N * list N * list N) : option (list N * list N * list N) :=
  match ps with
  | [] => Some acc
  | p :: ps' =>
      match neighbors with
      | [] => None
      | ns :: neighbors' =>
          let '(d, lo, hi) := acc in
          obind (deltas points p ns d) (fun d' => extents points ps' neighbors' (d', f_min lo p, f_max hi p))
      end
  end.

Definition zero_coord : list N := repeat (a_ofZ A 0) dim.

(** [determineMaximumDiameter] (lines 75-105): cellDim, gridDim, minCoord,
    maxCoord *)
Definition diameter (points : list (list N)) (neighbors : list (list Z)) : option (list N * list N * list N * list N) :=
  match points with
  | [] => Some (zero_coord, zero_coord, zero_coord, zero_coord)
  | p :: _ => option_map (fun '(d, lo, hi) => (d, f_sub hi lo, lo, hi)) (extents points points neighbors (zero_coord, p, p))
  end.

Fixpoint rounded_up (raw : list N) : option coord :=
  match raw with
  | [] => Some []
  | x :: raw' => obind (a_round (a_add A x one_half)) (fun z => option_map (cons z) (rounded_up raw'))
  end.

(** Constructor (lines 28-43) *)
Definition mesher_make (points : list (list N)) (neighbors : list (list Z)) : option mesher :=
  obind (diameter points neighbors) (fun '(cell, grid, lo, hi) =>
  obind (f_div grid cell) (fun raw =>
  option_map (fun l => mkMesher l cell grid lo hi) (rounded_up raw))).

Fixpoint rounded_down (raw : list N) : option coord :=
  match raw with
  | [] => Some []
  | x :: raw' => obind (a_floor x) (fun z => option_map (cons z) (rounded_down raw'))
  end.

(** [positionToLogicalCoord] (lines 56-66) *)
Definition logical_coord (m : mesher) (p : list N) : option coord := obind (f_div (f_sub p (me_min m)) (me_cell m)) rounded_down.

End Mesher.
Arguments mkMesher {N}. Arguments me_logical {N}. Arguments me_cell {N}. Arguments me_grid {N}. Arguments me_min {N}. Arguments me_max {N}.
