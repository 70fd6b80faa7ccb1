(** BoxCell and NeighborhoodIterator. Definitions only.

    Source: /repo/src/libgeodecomp/storage/boxcell.h,
    /repo/src/libgeodecomp/storage/neighborhooditerator.h,
    /repo/src/libgeodecomp/misc/apitraits.h,
    /repo/src/libgeodecomp/geometry/floatcoord.h. Containers of particles are
    lists with an optional capacity (none for std::vector; the size of a
    FixedArray, which is modelled in ArrayModel). Neighborhoods are maps from
    relative coordinates to places, i.e. cells of the old grid or its edge
    cell; comparing pointers to cells amounts to comparing places. [None] is
    undefined behaviour or being out of fuel. The numbers are a parameter. *)
From Verif Require Import Base CoordModel RegionOpsModel UpdateModel ArrayModel ParamModel GridSpec.

(** [BoxCell] (boxcell.h:23-175) *)
Record boxcell (N P : Type) := mkBoxCell { bx_origin : list N; bx_dim : list N; bx_parts : list P }.
Arguments mkBoxCell {N P}. Arguments bx_origin {N P}. Arguments bx_dim {N P}. Arguments bx_parts {N P}.

(** Componentwise relations between [FloatCoord]s: [dominates] and
    [strictlyDominates] (floatcoord.h:82-94, 331-346, 605-622). *)
Fixpoint all2 {N} (r : N -> N -> bool) (a b : list N) : bool :=
  match a, b with
  | [], [] => true
  | x :: a', y :: b' => r x y && all2 r a' b'
  | _, _ => false
  end.

(** Componentwise [operator+] (floatcoord.h:96-101 and the like for 2D, 3D) *)
Fixpoint fadd {N} (A : arith N) (a b : list N) : list N :=
  match a, b with
  | x :: a', y :: b' => a_add A x y :: fadd A a' b'
  | _, _ => []
  end.

(** [SelectPositionChecker::value] (apitraits.h:1077-1087) *)
Definition position_ok {N} (A : arith N) (p origin opposite : list N) : bool :=
  all2 (a_le A) origin p && all2 (a_lt A) p opposite.

(** The members of a [NeighborhoodIterator] which vary
    (neighborhooditerator.h:181-184). *)
Record nit := mkNit { n_at : coord; n_cell : place; n_pos : nat }.

Section Hood.
Context {N P : Type}.
Variable cells : place -> boxcell N P.
Variable hood : coord -> place.
Variable n : nat. (* DIM *)

Definition place_eqb (a b : place) : bool := if place_dec a b then true else false.

Definition hood_box : box := mkBox (diagonal n (-1)) (diagonal n 3).
Definition hood_fuel : nat := Z.to_nat (prod (b_dim hood_box)).

Definition size_of (p : place) : nat := length (bx_parts (cells p)).

(** [NeighborhoodIterator::end] (neighborhooditerator.h:128-137) *)
Definition nit_end : nit := mkNit (diagonal n 1) (hood (diagonal n 1)) (size_of (hood (diagonal n 1))).

(** [NeighborhoodIterator::begin] (neighborhooditerator.h:102-126) *)
Definition nit_begin : option nit :=
  option_map (fun l =>
    match find (fun c => (0 <? size_of (hood c))%nat) l with
    | Some c => mkNit c (hood c) 0
    | None => nit_end
    end) (box_coords hood_fuel hood_box).

(** The while loop of [operator++] (neighborhooditerator.h:153-164) *)
Fixpoint settle (fuel : nat) (at_ : coord) (cell : place) (pos : nat) : option nit :=
  if (pos =? size_of cell)%nat then
    let at' := box_next at_ (b_origin hood_box) (zadd (b_origin hood_box) (b_dim hood_box)) in
    if CoordModel.coord_eqb at' (box_end hood_box) then Some (mkNit at' cell pos)
    else match fuel with
         | O => None
         | S f => settle f at' (hood at') 0
         end
  else Some (mkNit at_ cell pos).

(** [operator++] (neighborhooditerator.h:149-165) *)
Definition nit_next (i : nit) : option nit := settle hood_fuel (n_at i) (n_cell i) (S (n_pos i)).

(** [operator==] (neighborhooditerator.h:167-170) *)
Definition nit_eqb (a b : nit) : bool := place_eqb (n_cell a) (n_cell b) && (n_pos a =? n_pos b)%nat.

(** What [for (i = begin; i != end; ++i)] finds at [*i]
    (boxcell.h:169, neighborhooditerator.h:139-142) *)
Fixpoint walk (fuel : nat) (i : nit) : option (list P) :=
  if nit_eqb i nit_end then Some []
  else match fuel with
       | O => None
       | S f => obind (nth_error (bx_parts (cells (n_cell i))) (n_pos i)) (fun p =>
                obind (nit_next i) (fun i' => option_map (cons p) (walk f i')))
       end.

Definition walk_fuel : nat := length (flat_map (fun c => bx_parts (cells (hood c))) (match box_coords hood_fuel hood_box with Some l => l | None => [] end)).

(** All particles an [Adapter] yields from [begin()] to [end()]
    (neighborhooditerator.h:18-55). *)
Definition hood_particles : option (list P) := obind nit_begin (walk walk_fuel).

Variable A : arith N.
Variable pos : P -> list N. (* getPos() *)
Variable cap : option nat.

(** [particles << p]: FixedArrays throw if they are full. *)
Definition push (l : list P) (p : P) : result (list P) :=
  match cap with
  | Some k => if (length l <? k)%nat then Done (l ++ [p]) else Threw l
  | None => Done (l ++ [p])
  end.

(** [addContainedParticles] (boxcell.h:164-174), for the particles found. *)
Fixpoint add_contained (origin opposite : list N) (found : list P) (l : list P) : result (list P) :=
  match found with
  | [] => Done l
  | p :: found' =>
      if position_ok A (pos p) origin opposite
      then match push l p with Done l' => add_contained origin opposite found' l' | Threw l' => Threw l' end
      else add_contained origin opposite found' l
  end.

(** [copyOver] (boxcell.h:123-138) *)
Definition copy_over (nano : nat) : option (result (boxcell N P)) :=
  let old := cells (hood (diagonal n 0)) in
  match nano with
  | O => option_map (fun found =>
           match add_contained (bx_origin old) (fadd A (bx_origin old) (bx_dim old)) found [] with
           | Done l => Done (mkBoxCell (bx_origin old) (bx_dim old) l)
           | Threw l => Threw (mkBoxCell (bx_origin old) (bx_dim old) l)
           end) hood_particles
  | S _ => Some (Done (mkBoxCell (bx_origin old) (bx_dim old) (bx_parts old)))
  end.

(** [update] (boxcell.h:112-121) with [updateCargo] (boxcell.h:140-152). A
    particle's update() is a function of the nano step, the particles which
    the adapter yields, and its own state; particles which insert others are
    not covered. *)
Variable pupd : nat -> list P -> P -> P.

Definition bx_update (nano : nat) : option (result (boxcell N P)) :=
  obind hood_particles (fun all =>
  option_map (fun r => match r with
                       | Done b => Done (mkBoxCell (bx_origin b) (bx_dim b) (map (pupd nano all) (bx_parts b)))
                       | Threw b => Threw b
                       end) (copy_over nano)).

End Hood.

(** Updating the cell at [c] of a grid: its neighborhood consists of the
    cells which the coordinates around it denote (see C35, C36 and C44). *)
Definition cell_hood (t : topology) (dim c : coord) (rel : coord) : place := denotes t dim (zadd c rel).
