(** Grids which store their cells in a vector: Grid and DisplacedGrid.
    Definitions only.

    Sources: storage/grid.h, storage/displacedgrid.h, storage/gridbase.h,
    geometry/topologies.h (locate), all below /repo/src/libgeodecomp. Integers
    are unbounded. The buffers for saveRegion and loadRegion are vectors of
    cells, the ones for SoA and Boost Serialization are not modelled; [None] is
    undefined behaviour, in particular accesses beyond the end of a vector. *)
From Verif Require Import Base RegionSpec RegionModel RegionIterModel RegionOpsModel CoordModel PatchModel.

(** [cellVector[i]] *)
Definition vec_get {C} (l : list C) (i : Z) : option C :=
  if i <? 0 then None else nth_error l (Z.to_nat i).

Fixpoint vec_put {C} (l : list C) (i : nat) (v : C) : option (list C) :=
  match l, i with
  | [], _ => None
  | _ :: l', O => Some (v :: l')
  | x :: l', S i' => option_map (cons x) (vec_put l' i' v)
  end.

Definition vec_set {C} (l : list C) (i : Z) (v : C) : option (list C) :=
  if i <? 0 then None else vec_put l (Z.to_nat i) v.

(** [std::copy] from and to consecutive places of a vector, starting at [i]. *)
Fixpoint vec_read {C} (l : list C) (i : Z) (n : nat) : option (list C) :=
  match n with
  | O => Some []
  | S n' => obind (vec_get l i) (fun v => option_map (cons v) (vec_read l (i + 1) n'))
  end.

Fixpoint vec_write {C} (l : list C) (i : Z) (n : nat) (vs : list C) : option (list C) :=
  match n, vs with
  | O, _ => Some l
  | S n', v :: vs' => obind (vec_set l i v) (fun l' => vec_write l' (i + 1) n' vs')
  | S _, [] => None
  end.

(** Members of Grid (grid.h:490-493); the topology is a parameter. *)
Record vgrid (C : Type) := mkVGrid { g_dim : coord; g_cells : list C; g_edge : C }.
Arguments mkVGrid {C} g_dim g_cells g_edge. Arguments g_dim {C} v. Arguments g_cells {C} v. Arguments g_edge {C} v.

(** The constructor (grid.h:64-71). *)
Definition grid_make {C} (dim : coord) (dflt edge : C) : vgrid C :=
  mkVGrid dim (repeat dflt (Z.to_nat (prod dim))) edge.

Section Grid.
Context {C : Type} (t : topology).

(** [Topology::locate] (topologies.h:201-215) via [operator[]]
    (grid.h:146-154), read and written. *)
Definition grid_get (g : vgrid C) (c : coord) : option C :=
  if out_of_bounds t c (g_dim g) then Some (g_edge g)
  else vec_get (g_cells g) (to_index (normalize_edges c (g_dim g)) (g_dim g)).

Definition grid_set (g : vgrid C) (c : coord) (v : C) : option (vgrid C) :=
  if out_of_bounds t c (g_dim g) then Some (mkVGrid (g_dim g) (g_cells g) v)
  else option_map (fun l => mkVGrid (g_dim g) l (g_edge g))
         (vec_set (g_cells g) (to_index (normalize_edges c (g_dim g)) (g_dim g)) v).

(** [setEdge] (grid.h:241-244) *)
Definition grid_set_edge (g : vgrid C) (v : C) : vgrid C := mkVGrid (g_dim g) (g_cells g) v.

(** [boundingBox] (grid.h:273-276) *)
Definition grid_box (g : vgrid C) : box := mkBox (map (fun _ => 0) (g_dim g)) (g_dim g).

(** Cell by cell, as in the loops at grid.h:214-217 and 235-238. *)
Fixpoint get_cells (g : vgrid C) (cs : list coord) : option (list C) :=
  match cs with
  | [] => Some []
  | c :: cs' => obind (grid_get g c) (fun v => option_map (cons v) (get_cells g cs'))
  end.

Fixpoint set_cells (g : vgrid C) (cs : list coord) (vs : list C) : option (vgrid C) :=
  match cs, vs with
  | [], _ => Some g
  | c :: cs', v :: vs' => obind (grid_set g c v) (fun g' => set_cells g' cs' vs')
  | _ :: _, [] => None
  end.

(** [get] for Streaks (grid.h:225-239): Streaks inside of the grid
    are read en bloc, starting at the address of the first cell. Reading a
    block from the address of the edge cell, or one of negative length, would
    be undefined. *)
Definition grid_get_streak (g : vgrid C) (s : streak) : option (list C) :=
  if box_in_bounds_streak (grid_box g) s then
    if out_of_bounds t (s_origin s) (g_dim g) then None
    else if s_e s <? s_x s then None
    else vec_read (g_cells g) (to_index (normalize_edges (s_origin s) (g_dim g)) (g_dim g)) (Z.to_nat (s_e s - s_x s))
  else get_cells g (streak_coords s).

(** [set] for Streaks (grid.h:203-218) *)
Definition grid_set_streak (g : vgrid C) (s : streak) (vs : list C) : option (vgrid C) :=
  if box_in_bounds_streak (grid_box g) s then
    if out_of_bounds t (s_origin s) (g_dim g) then None
    else if s_e s <? s_x s then None
    else option_map (fun l => mkVGrid (g_dim g) l (g_edge g))
           (vec_write (g_cells g) (to_index (normalize_edges (s_origin s) (g_dim g)) (g_dim g)) (Z.to_nat (s_e s - s_x s)) vs)
  else set_cells g (streak_coords s) vs.

(** [saveRegionImplementation], [loadRegionImplementation] (grid.h:316-342):
    the cells of one Streak after the other. *)
Fixpoint save_streaks (g : vgrid C) (ss : list streak) : option (list C) :=
  match ss with
  | [] => Some []
  | s :: ss' => obind (grid_get_streak g s) (fun a => option_map (app a) (save_streaks g ss'))
  end.

Fixpoint load_streaks (g : vgrid C) (ss : list streak) (vs : list C) : option (vgrid C) :=
  match ss with
  | [] => Some g
  | s :: ss' => obind (grid_set_streak g s vs) (fun g' => load_streaks g' ss' (skipn (Z.to_nat (s_e s - s_x s)) vs))
  end.

(** [Grid::saveRegion], [Grid::loadRegion] (grid.h:278-303) *)
Definition grid_save (g : vgrid C) (r : indices) (off : coord) : option (list C) :=
  obind (reg_streaks_off r off 0) (save_streaks g).

Definition grid_load (g : vgrid C) (r : indices) (off : coord) (vs : list C) : option (vgrid C) :=
  obind (reg_streaks_off r off 0) (fun ss => load_streaks g ss vs).
End Grid.

(** ** DisplacedGrid *)

(** Members of DisplacedGrid and GridBase (displacedgrid.h:130-138,
    gridbase.h:83-85); topology and the flag TOPOLOGICALLY_CORRECT are
    parameters. *)
Record dgrid (C : Type) := mkDGrid { d_grid : vgrid C; d_org : coord; d_topo : coord }.
Arguments mkDGrid {C} d_grid d_org d_topo. Arguments d_grid {C} d. Arguments d_org {C} d. Arguments d_topo {C} d.

Definition dg_make {C} (b : box) (dflt edge : C) (topo : coord) : dgrid C :=
  mkDGrid (grid_make (b_dim b) dflt edge) (b_origin b) topo.

Definition dg_with {C} (d : dgrid C) (g : vgrid C) : dgrid C := mkDGrid g (d_org d) (d_topo d).

(** [NormalizingIterator::normalize] (displacedgrid.h:93-100) *)
Definition norm_streak (t : topology) (correct : bool) (topo : coord) (s : streak) : streak :=
  if correct then
    let o := normalize t (s_origin s) topo in
    mkStreak (removelast o) (last o 0) (last o 0 + (s_e s - s_x s))
  else s.

Definition norm_iter (t : topology) (correct : bool) (topo : coord) (it : siter) : siter :=
  mkIter (it_pos it) (norm_streak t correct topo (it_streak it)).

(** The loops of saveRegionImplementation and loadRegionImplementation
    (grid.h:324, 338) with a NormalizingIterator (displacedgrid.h:42-68): the
    parent's cached Streak is overwritten by the normalized one. *)
Fixpoint nit_run (t : topology) (correct : bool) (topo : coord) (fuel : nat) (r : indices) (off : list Z) (it fin : siter)
  : option (list streak) :=
  if it_eqb it fin then Some []
  else match fuel with
       | O => None
       | S f =>
           match it_next r off 0 it with
           | None => None
           | Some it' =>
               match nit_run t correct topo f r off (norm_iter t correct topo it') fin with
               | Some l => Some (it_streak it :: l)
               | None => None
               end
           end
       end.

Definition norm_streaks_off (t : topology) (correct : bool) (topo : coord) (r : indices) (off : list Z) : option (list streak) :=
  match it_begin r off 0 with
  | Some b => nit_run t correct topo (length (last r [])) r off (norm_iter t correct topo b) (it_end r)
  | None => None
  end.

Section Displaced.
Context {C : Type} (t : topology) (correct : bool).

(** [operator[]] (displacedgrid.h:202-214): the coordinate handed to the
    delegate. *)
Definition dg_coord (d : dgrid C) (c : coord) : coord :=
  let rel := zsub c (d_org d) in if correct then normalize t rel (d_topo d) else rel.

(** [get], [set] (displacedgrid.h:216-238), [setEdge] (240-243) *)
Definition dg_get (d : dgrid C) (c : coord) : option C := grid_get t (d_grid d) (dg_coord d c).

Definition dg_set (d : dgrid C) (c : coord) (v : C) : option (dgrid C) :=
  option_map (dg_with d) (grid_set t (d_grid d) (dg_coord d c) v).

Definition dg_streak (d : dgrid C) (s : streak) : streak :=
  mkStreak (zsub (s_pre s) (d_org d)) (s_x s - last (d_org d) 0) (s_e s - last (d_org d) 0).

Definition dg_get_streak (d : dgrid C) (s : streak) : option (list C) := grid_get_streak t (d_grid d) (dg_streak d s).

Definition dg_set_streak (d : dgrid C) (s : streak) (vs : list C) : option (dgrid C) :=
  option_map (dg_with d) (grid_set_streak t (d_grid d) (dg_streak d s) vs).

Definition dg_set_edge (d : dgrid C) (v : C) : dgrid C := dg_with d (grid_set_edge (d_grid d) v).

(** [boundingBox] (displacedgrid.h:255-258) *)
Definition dg_box (d : dgrid C) : box := mkBox (d_org d) (g_dim (d_grid d)).

(** [saveRegion], [loadRegion] (displacedgrid.h:260-268, 281-289) *)
Definition dg_save (d : dgrid C) (r : indices) (off : coord) : option (list C) :=
  obind (norm_streaks_off t correct (d_topo d) r (zsub off (d_org d))) (save_streaks t (d_grid d)).

Definition dg_load (d : dgrid C) (r : indices) (off : coord) (vs : list C) : option (dgrid C) :=
  obind (norm_streaks_off t correct (d_topo d) r (zsub off (d_org d)))
    (fun ss => option_map (dg_with d) (load_streaks t (d_grid d) ss vs)).
End Displaced.

(** ** Histories of write accesses *)

Inductive gop (C : Type) :=
| GSet (c : coord) (v : C)
| GSetStreak (s : streak) (vs : list C)
| GSetEdge (v : C).
Arguments GSet {C} c v. Arguments GSetStreak {C} s vs. Arguments GSetEdge {C} v.

Definition grid_op {C} (t : topology) (g : vgrid C) (o : gop C) : option (vgrid C) :=
  match o with
  | GSet c v => grid_set t g c v
  | GSetStreak s vs => grid_set_streak t g s vs
  | GSetEdge v => Some (grid_set_edge g v)
  end.

Fixpoint grid_ops {C} (t : topology) (g : vgrid C) (l : list (gop C)) : option (vgrid C) :=
  match l with [] => Some g | o :: l' => obind (grid_op t g o) (fun g' => grid_ops t g' l') end.

Definition dg_op {C} (t : topology) (correct : bool) (d : dgrid C) (o : gop C) : option (dgrid C) :=
  match o with
  | GSet c v => dg_set t correct d c v
  | GSetStreak s vs => dg_set_streak t d s vs
  | GSetEdge v => Some (dg_set_edge d v)
  end.

Fixpoint dg_ops {C} (t : topology) (correct : bool) (d : dgrid C) (l : list (gop C)) : option (dgrid C) :=
  match l with [] => Some d | o :: l' => obind (dg_op t correct d o) (fun d' => dg_ops t correct d' l') end.

(** ** Comparison *)

(** A grid as seen via the interface GridBase (gridbase.h:95-133). *)
Record gview (C : Type) := mkView { v_box : box; v_edge : C; v_get : coord -> option C }.
Arguments mkView {C} v_box v_edge v_get. Arguments v_box {C} g. Arguments v_edge {C} g. Arguments v_get {C} g.

Definition grid_view {C} (t : topology) (g : vgrid C) : gview C := mkView (grid_box g) (g_edge g) (grid_get t g).
Definition dg_view {C} (t : topology) (correct : bool) (d : dgrid C) : gview C :=
  mkView (dg_box d) (g_edge (d_grid d)) (dg_get t correct d).

Section Compare.
Context {C : Type} (ceq : C -> C -> bool).   (* operator== of the cells *)

(** [CoordBox::operator==] (coordbox.h:42-47) *)
Definition box_eqb (a b : box) : bool :=
  CoordModel.coord_eqb (b_origin a) (b_origin b) && CoordModel.coord_eqb (b_dim a) (b_dim b).

(** Comparison of vectors. *)
Fixpoint cells_eqb (a b : list C) : bool :=
  match a, b with
  | [], [] => true
  | x :: a', y :: b' => ceq x y && cells_eqb a' b'
  | _, _ => false
  end.

(** [Grid::operator==(const Grid&)] (grid.h:156-166). A default constructed
    CoordBox is all zero. *)
Definition grid_eqb (a b : vgrid C) : bool :=
  let zero := mkBox (map (fun _ => 0) (g_dim a)) (map (fun _ => 0) (g_dim a)) in
  if box_eqb (grid_box a) zero && box_eqb (grid_box b) zero then true
  else ceq (g_edge a) (g_edge b) && cells_eqb (g_cells a) (g_cells b).

Fixpoint views_agree (a b : gview C) (cs : list coord) : option bool :=
  match cs with
  | [] => Some true
  | c :: cs' =>
      obind (v_get a c) (fun x => obind (v_get b c) (fun y =>
        if ceq x y then views_agree a b cs' else Some false))
  end.

(** [GridBase::operator==(const GridBase&)] (gridbase.h:187-205); this is also
    [Grid::operator==(const GridBase&)] (grid.h:168-186) except for the order
    of the first two tests. [None] also if out of fuel. *)
Definition view_eqb (fuel : nat) (a b : gview C) : option bool :=
  if negb (ceq (v_edge a) (v_edge b)) then Some false
  else if negb (box_eqb (v_box a) (v_box b)) then Some false
  else obind (box_coords fuel (v_box a)) (views_agree a b).

(** [Grid(const GridBase&)] (grid.h:73-82); [dflt] is CELL_TYPE(). *)
Fixpoint copy_cells (t : topology) (b : gview C) (g : vgrid C) (cs : list coord) : option (vgrid C) :=
  match cs with
  | [] => Some g
  | c :: cs' =>
      obind (v_get b c) (fun v =>
      obind (grid_set t g (zsub c (b_origin (v_box b))) v) (fun g' => copy_cells t b g' cs'))
  end.

Definition grid_of_view (t : topology) (dflt : C) (fuel : nat) (b : gview C) : option (vgrid C) :=
  obind (box_coords fuel (v_box b)) (copy_cells t b (grid_make (b_dim (v_box b)) dflt (v_edge b))).
End Compare.
