(** Planes, convex polytopes and Voronoi cells in 2D. Definitions only.

    Sources: /repo/src/libgeodecomp/geometry/plane.h,
    /repo/src/libgeodecomp/geometry/convexpolytope.h,
    /repo/src/libgeodecomp/geometry/voronoimesher.h.

    Coordinates are rational numbers, computed with exactly. Lengths are
    represented by their squares, which avoids roots. The volume is estimated
    by random sampling and isn't modelled, nor is getShape. *)
From Coq Require Import ZArith QArith Qround Qminmax List Bool.
From Verif Require Import Base ParamModel.
Import ListNotations.
Open Scope Q_scope.

Definition point := (Q * Q)%type.

(** FloatCoord<2>: -, +, * (floatcoord.h:349-424) and comparison *)
Definition psub (a b : point) : point := (fst a - fst b, snd a - snd b).
Definition padd (a b : point) : point := (fst a + fst b, snd a + snd b).
Definition pscale (a : point) (s : Q) : point := (fst a * s, snd a * s).
Definition dot (a b : point) : Q := fst a * fst b + snd a * snd b.
Definition peqb (a b : point) : bool := Qeq_bool (fst a) (fst b) && Qeq_bool (snd a) (snd b).
Definition lt_b (a b : Q) : bool := negb (Qle_bool b a).

(** [Plane] (plane.h:12-46); [e_length2] is the square of the length. *)
Record plane := mkPlane { e_base : point; e_dir : point; e_id : Z; e_length2 : Q }.

Definition make_plane (base dir : point) (id : Z) : plane := mkPlane base dir id 1.

(** [isOnTop] (plane.h:27-30), [operator==] (plane.h:32-40) *)
Definition is_on_top (e : plane) (c : point) : bool := lt_b 0 (dot (psub c (e_base e)) (e_dir e)).
Definition plane_eqb (a b : plane) : bool := peqb (e_base a) (e_base b) && peqb (e_dir a) (e_dir b).

(** [farAway], [turnLeft90] (convexpolytope.h:241-250) *)
Definition far_away : point := (-1, -1).
Definition turn_left (c : point) : point := (snd c, - fst c).

(** [cutPoint] (convexpolytope.h:300-341). After the first test the normal of
    the first line isn't horizontal. *)
Definition cut_lines (dim : point) (e1 e2 : plane) : point :=
  let dir1 := turn_left (e_dir e1) in
  let m1 := snd dir1 / fst dir1 in
  let d1 := snd (e_base e1) - m1 * fst (e_base e1) in
  if Qeq_bool (snd (e_dir e2)) 0 then (fst (e_base e2), fst (e_base e2) * m1 + d1)
  else
    let dir2 := turn_left (e_dir e2) in
    let m2 := snd dir2 / fst dir2 in
    let d2 := snd (e_base e2) - m2 * fst (e_base e2) in
    if Qeq_bool m1 m2 then far_away
    else
      let x := (d2 - d1) / (m1 - m2) in
      let y := d1 + x * m1 in
      if lt_b x (-10 * fst dim) || lt_b (10 * fst dim) x || lt_b y (-10 * snd dim) || lt_b (10 * snd dim) y then far_away
      else (x, y).

Definition cut_point (dim : point) (e1 e2 : plane) : point :=
  if Qeq_bool (snd (e_dir e1)) 0 then
    if Qeq_bool (snd (e_dir e2)) 0 then far_away else cut_lines dim e2 e1
  else cut_lines dim e1 e2.

(** [generateCutPoints] (convexpolytope.h:252-298): the pair of points for
    equation i; one of both is updated for each other equation j. *)
Definition distance (e : plane) (c : point) : Q := dot (psub c (e_base e)) (turn_left (e_dir e)).

Definition cut_left (e : plane) (old cut : point) : point :=
  let flag := peqb old far_away || lt_b (distance e cut) (distance e old) in
  if flag && negb (peqb cut far_away) then cut else old.
Definition cut_right (e : plane) (old cut : point) : point :=
  let flag := peqb old far_away || lt_b (distance e old) (distance e cut) in
  if flag && negb (peqb cut far_away) then cut else old.

Definition cut_step (dim : point) (i : nat) (e : plane) (lr : point * point) (jf : nat * plane) : point * point :=
  let '(j, f) := jf in
  if (i =? j)%nat then lr
  else
    let cut := cut_point dim e f in
    if lt_b 0 (dot (e_dir f) (turn_left (e_dir e))) then (fst lr, cut_right e (snd lr) cut) else (cut_left e (fst lr) cut, snd lr).

Definition numbered {A} (l : list A) : list (nat * A) := combine (seq 0 (length l)) l.

Definition cuts_of (dim : point) (es : list plane) (i : nat) (e : plane) : point * point :=
  fold_left (cut_step dim i e) (numbered es) (far_away, far_away).

Definition generate_cuts (dim : point) (es : list plane) : list (point * point) :=
  map (fun ie => cuts_of dim es (fst ie) (snd ie)) (numbered es).

(** [ConvexPolytope]: members (convexpolytope.h:232-239); the bounding box
    consists of origin and dimensions. *)
Record polytope := mkPolytope {
  p_center : point; p_dim : point; p_limits : list plane; p_cuts : list (point * point);
  p_box : (Z * Z) * (Z * Z); p_diameter : Q;
}.

Definition sides (center dim : point) : list plane :=
  [make_plane (fst center, 0) (0, 1) 0; make_plane (0, snd center) (1, 0) 0;
   make_plane (fst dim, snd center) (-1, 0) 0; make_plane (fst center, snd dim) (0, -1) 0].

(** Constructor (convexpolytope.h:25-38) *)
Definition polytope_make (center dim : point) : polytope :=
  mkPolytope center dim (sides center dim) (generate_cuts dim (sides center dim)) ((0, 0), (0, 0))%Z (Qmax (fst dim) (snd dim)).

Definition below (e : plane) (c : point) : bool := Qle_bool (dot (psub c (e_base e)) (e_dir e)) 0.

(** [operator<<] for planes (convexpolytope.h:40-89) *)
Definition insert_plane (p : polytope) (e : plane) : polytope :=
  if existsb (plane_eqb e) (p_limits p) then p
  else
    let all := combine (p_limits p) (p_cuts p) in
    let superfluous := forallb (fun lc => negb (below e (fst (snd lc)) || below e (snd (snd lc)))) all in
    let dead lc := below e (fst (snd lc)) && below e (snd (snd lc)) in
    let kept := map fst (filter (fun lc => negb (dead lc)) all) in
    let limits := if superfluous then kept else kept ++ [e] in
    if existsb dead all || negb superfluous then
      mkPolytope (p_center p) (p_dim p) limits (generate_cuts (p_dim p) limits) (p_box p) (p_diameter p)
    else p.

(** [operator<<] for points (convexpolytope.h:91-105) *)
Definition bisector (center c : point) (id : Z) : plane := make_plane (pscale (padd center c) (1 # 2)) (psub center c) id.

Definition insert_point (p : polytope) (c : point) (id : Z) : polytope :=
  let e := bisector (p_center p) c id in
  let '((ox, oy), (dx, dy)) := p_box p in
  if lt_b (inject_Z (dx + 1)) (inject_Z ox - fst (e_base e)) || lt_b (inject_Z (dy + 1)) (inject_Z oy - snd (e_base e)) then p
  else insert_plane p e.

(** [includes] (convexpolytope.h:138-146) *)
Definition includes (p : polytope) (c : point) : bool := forallb (fun e => is_on_top e c) (p_limits p).

(** [updateGeometryData] (convexpolytope.h:153-200); [None] is an exception.
    The flag is [updateBoundingBoxOnly]. *)
Definition set_length (lc : plane * (point * point)) : plane :=
  let d := psub (fst (snd lc)) (snd (snd lc)) in
  mkPlane (e_base (fst lc)) (e_dir (fst lc)) (e_id (fst lc)) (dot d d).

Definition pmax (a b : point) : point := (Qmax (fst a) (fst b), Qmax (snd a) (snd b)).
Definition pmin (a b : point) : point := (Qmin (fst a) (fst b), Qmin (snd a) (snd b)).

Definition cut_list (p : polytope) : list point := flat_map (fun lr => [fst lr; snd lr]) (p_cuts p).

Definition extents (p : polytope) : point * point :=
  fold_left (fun mm c => if peqb c far_away then mm else (pmin c (fst mm), pmax c (snd mm))) (cut_list p) (p_dim p, pscale (p_dim p) (-1)).

Definition update_geometry (only_box : bool) (p : polytope) : option polytope :=
  let limits := map set_length (combine (p_limits p) (p_cuts p)) in
  let '(mn, mx) := extents p in
  let delta := psub mx mn in
  let box := ((qtrunc (fst mn), qtrunc (snd mn)), (qtrunc (fst delta), qtrunc (snd delta))) in
  if only_box then Some (mkPolytope (p_center p) (p_dim p) limits (p_cuts p) box (p_diameter p))
  else
    let d := Qmax (fst delta) (snd delta) in
    if lt_b (p_diameter p) d then None else Some (mkPolytope (p_center p) (p_dim p) limits (p_cuts p) box d).

(** ** VoronoiMesher *)

(** A cell: its centre and its ID. *)
Definition cell := (point * Z)%type.

(** What [fillGeometryData] hands to pushNeighbor for one cell, given the cells
    of the surrounding containers (voronoimesher.h:96-124): ID, square of the
    length, direction. [None] is an exception. *)
Definition mesh_element (dim : point) (c : cell) (around : list cell) : polytope :=
  fold_left (fun e j => if peqb (fst c) (fst j) then e else insert_point e (fst j) (snd c)) around (polytope_make (fst c) dim).

Definition mesh_neighbors (dim quadrant : point) (c : cell) (around : list cell) : option (list (Z * Q * point)) :=
  match update_geometry false (mesh_element dim c around) with
  | None => None
  | Some e =>
      if lt_b (Qmin (fst quadrant) (snd quadrant)) (p_diameter e) then None
      else Some (map (fun l => (e_id l, e_length2 l, e_dir l)) (p_limits e))
  end.
