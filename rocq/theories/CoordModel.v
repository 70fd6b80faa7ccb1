(** Model of [CoordBox] and its iterators
    (/repo/src/libgeodecomp/geometry/coordbox.h), of the index computations
    of [Coord] (/repo/src/libgeodecomp/geometry/coord.h) and of the
    topologies (/repo/src/libgeodecomp/geometry/topologies.h).
    Definitions only. *)
From Verif Require Import Base.

(** [CoordBox<DIM>] (coordbox.h:19-40). *)
Record box := mkBox { b_origin : coord; b_dim : coord }.

(** [Coord::diagonal] (coord.h:97-100, 339-342, 622-625). *)
Definition diagonal (n : nat) (x : Z) : coord := repeat x n.

(** [Coord::prod] (coord.h:275-278, 556-559, 863-866). *)
Fixpoint prod (c : coord) : Z := match c with [] => 1 | x :: c' => x * prod c' end.

(** The for loop of [CoordBox::Iterator::operator++]
    (coordbox.h:162-168): increments the least significant component, on
    overflow resets it and carries on. The boolean tells whether the loop ran
    to its end. *)
Fixpoint box_carry (cur org fin : coord) : coord * bool :=
  match cur, org, fin with
  | c :: cur', o :: org', f :: fin' =>
      let '(cs, carry) := box_carry cur' org' fin' in
      if carry
      then if c + 1 =? f then (o :: cs, true) else (c + 1 :: cs, false)
      else (c :: cs, false)
  | _, _, _ => ([], true)
  end.

(** [CoordBox::Iterator::operator++] (coordbox.h:158-173). *)
Definition box_next (cur org fin : coord) : coord :=
  match cur with
  | [] => []
  | c :: cur' =>
      let '(cs, carry) := box_carry cur' (tl org) (tl fin) in
      (if carry then c + 1 else c) :: cs
  end.

(** [CoordBox::end] (coordbox.h:66-71). *)
Definition box_end (b : box) : coord :=
  match b_origin b, b_dim b with
  | o :: os, n :: _ => (o + n) :: os
  | _, _ => []
  end.

Fixpoint coord_eqb (a b : coord) : bool :=
  match a, b with
  | [], [] => true
  | x :: a', y :: b' => (x =? y) && coord_eqb a' b'
  | _, _ => false
  end.

(** [for (i = start; i != fin; ++i)] with [CoordBox::Iterator]s. [None]: out
    of fuel. *)
Fixpoint box_run (fuel : nat) (cur stop org fin : coord) : option (list coord) :=
  if coord_eqb cur stop then Some []
  else match fuel with
       | O => None
       | S f => match box_run f (box_next cur org fin) stop org fin with
                | Some l => Some (cur :: l)
                | None => None
                end
       end.

(** Walk from [begin()] to [end()] (coordbox.h:56-59, 66-71, 129-136). *)
Definition box_coords (fuel : nat) (b : box) : option (list coord) :=
  box_run fuel (b_origin b) (box_end b) (b_origin b) (zadd (b_origin b) (b_dim b)).

(** [endPos] (coordbox.h:233-250): 1D boxes have one streak unless empty. *)
Definition box_end_streak (b : box) : coord :=
  match b_origin b, b_dim b with
  | [o], [n] => [if 0 <? n then o + 1 else o]
  | _, _ => box_end b
  end.

(** [iter.end] of [CoordBox::StreakIterator] (coordbox.h:191-198): as for
    the plain iterator, but the x-extent is 1. *)
Definition box_streak_fin (b : box) : coord :=
  removelast (zadd (b_origin b) (b_dim b)) ++ [last (b_origin b) 0 + 1].

(** Walk from [beginStreak()] to [endStreak()] (coordbox.h:61-64, 73-77,
    188-230). The streak's end is set by the constructor and never changes,
    its origin is the iterator's current position. *)
Definition box_streaks (fuel : nat) (b : box) : option (list streak) :=
  match box_run fuel (b_origin b) (box_end_streak b) (b_origin b) (box_streak_fin b) with
  | Some l => Some (map (fun c => mkStreak (removelast c) (last c 0)
                                    (last (b_origin b) 0 + last (b_dim b) 0)) l)
  | None => None
  end.

(** ** Topologies *)

(** A topology is given by the flags [WRAP_AXISn] (topologies.h:165-173),
    most significant axis first. *)
Definition topology := list bool.

(** [NormalizeEdges::wrap] (topologies.h:82-93). *)
Definition wrap (x dim : Z) : Z := if x <? 0 then x + dim else if dim <=? x then x - dim else x.

(** [NormalizeEdges::operator()] (topologies.h:57-79). *)
Fixpoint normalize_edges (c dim : coord) : coord :=
  match c, dim with x :: c', n :: dim' => wrap x n :: normalize_edges c' dim' | _, _ => [] end.

(** [OutOfBounds::operator()] (topologies.h:103-133). *)
Fixpoint out_of_bounds (t : topology) (c dim : coord) : bool :=
  match t, c, dim with
  | w :: t', x :: c', n :: dim' =>
      (negb w && ((x <? 0) || (n <=? x))) || out_of_bounds t' c' dim'
  | _, _, _ => false
  end.

(** [NormalizeCoord::operator()] (topologies.h:150-159),
    [Topology::normalize] (topologies.h:224-228). *)
Definition normalize (t : topology) (c dim : coord) : coord :=
  if out_of_bounds t c dim then diagonal (length c) (-1) else normalize_edges c dim.

Definition cube (n : nat) : topology := repeat false n.
Definition torus (n : nat) : topology := repeat true n.

(** [CoordBox::inBounds(const Coord&)] (coordbox.h:83-88). *)
Definition box_in_bounds (b : box) (c : coord) : bool :=
  negb (out_of_bounds (cube (length c)) (zsub c (b_origin b)) (b_dim b)).

(** [CoordBox::inBounds(const Streak&)] (coordbox.h:93-101). *)
Definition box_in_bounds_streak (b : box) (s : streak) : bool :=
  negb (out_of_bounds (cube (length (s_origin s))) (zsub (s_origin s) (b_origin b)) (b_dim b)) &&
  (s_e s <=? last (b_origin b) 0 + last (b_dim b) 0).

Fixpoint zmax (a b : coord) : coord :=
  match a, b with x :: a', y :: b' => Z.max x y :: zmax a' b' | _, _ => [] end.
Fixpoint zmin (a b : coord) : coord :=
  match a, b with x :: a', y :: b' => Z.min x y :: zmin a' b' | _, _ => [] end.

(** [CoordBox::intersects] (coordbox.h:111-116). *)
Definition box_intersects (a b : box) : bool :=
  let m := zmax (b_origin a) (b_origin b) in box_in_bounds a m && box_in_bounds b m.

(** ** Linear indices *)

(** [Coord::toIndex] (coord.h:161-164, 427-430, 710-716). For [Coord<3>]:
    [z * dim.y * dim.x + y * dim.x + x]. *)
Fixpoint to_index (c dim : coord) : Z :=
  match c, dim with x :: c', _ :: dim' => x * prod dim' + to_index c' dim' | _, _ => 0 end.

(** [dim.indexToCoord(index)] (coord.h:152-155, 418-421, 697-704), with C++
    division. [None]: other dimensionalities do not exist. *)
Definition index_to_coord (dim : coord) (index : Z) : option coord :=
  match dim with
  | [_] => Some [index]
  | [_; nx] => Some [Z.quot index nx; Z.rem index nx]
  | [_; ny; nx] =>
      let remainder := Z.quot index nx in
      Some [Z.quot remainder ny; Z.rem remainder ny; Z.rem index nx]
  | _ => None
  end.
