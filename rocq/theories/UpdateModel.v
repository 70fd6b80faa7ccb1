(** Updating the cells of a region: UpdateFunctor with its two code paths for
    grids which store whole cells. Definitions only.

    Sources: storage/updatefunctor.h, storage/updatefunctormacros.h,
    storage/vanillaupdatefunctor.h, storage/coordmap.h,
    storage/linepointerassembly.h, storage/linepointerneighborhood.h,
    storage/linepointerupdatefunctor.h, all below /repo/src/libgeodecomp.

    [None] is undefined behaviour (accesses beyond the end of a vector, or
    beyond a single cell) or a compile time error. Cells read their neighbors
    at the coordinates of their stencil only; [updateLineX] of a cell is taken
    to update one cell after the other, as update does. Integers are
    unbounded. The paths for Struct of Arrays and for unstructured grids are
    not part of this file. *)
From Verif Require Import Base RegionSpec RegionModel RegionIterModel RegionOpsModel CoordModel PatchModel GridModel StencilModel.

(** Addresses of cells: the edge cell of a grid, or an index into its vector
    of cells. *)
Inductive ptr := PEdge | PCell (i : Z).

(** The address of [grid[c]] (grid.h:146-154, topologies.h:201-215,
    displacedgrid.h:202-214). *)
Definition grid_loc {C} (t : topology) (g : vgrid C) (c : coord) : ptr :=
  if out_of_bounds t c (g_dim g) then PEdge else PCell (to_index (normalize_edges c (g_dim g)) (g_dim g)).

Definition dg_loc {C} (t : topology) (correct : bool) (d : dgrid C) (c : coord) : ptr :=
  grid_loc t (d_grid d) (dg_coord t correct d c).

(** [p[k]], read and written: there is just one edge cell. *)
Definition deref {C} (g : vgrid C) (p : ptr) (k : Z) : option C :=
  match p with
  | PEdge => if k =? 0 then Some (g_edge g) else None
  | PCell i => vec_get (g_cells g) (i + k)
  end.

Definition store {C} (g : vgrid C) (p : ptr) (k : Z) (v : C) : option (vgrid C) :=
  match p with
  | PEdge => if k =? 0 then Some (mkVGrid (g_dim g) (g_cells g) v) else None
  | PCell i => option_map (fun l => mkVGrid (g_dim g) l (g_edge g)) (vec_set (g_cells g) (i + k) v)
  end.

(** [Coord<DIM>(FixedCoord)] (coord.h:109-113, 361-366, 636-642), most
    significant component first. *)
Definition fc_coord (d : nat) (f : fixed) : coord := rev (firstn d [fc_x f; fc_y f; fc_z f]).

(** Component of axis [i]; axis 0 is X. *)
Definition axis (i : nat) (c : coord) : Z := nth i (rev c) 0.
Definition wraps_axis (t : topology) (i : nat) : bool := nth i (rev t) false.

Fixpoint omap {A B} (f : A -> option B) (l : list A) : option (list B) :=
  match l with [] => Some [] | a :: l' => obind (f a) (fun b => option_map (cons b) (omap f l')) end.

(** Displacing Streaks, as in updatefunctor.h:163-164, 204-205. *)
Definition move_streak (s : streak) (off : coord) : streak :=
  let o := zadd (s_origin s) off in mkStreak (removelast o) (last o 0) (s_e s + last off 0).

(** ** LinePointerAssembly *)

(** [CalcXCoord] (linepointerassembly.h:16-60) *)
Definition calc_x (x : Z) (s : streak) : option Z :=
  if x =? -1 then Some (s_x s - 1) else if x =? 0 then Some (s_x s) else if x =? 1 then Some (s_e s) else None.

(** [DetermineLinePointerCoord] (linepointerassembly.h:67-113) *)
Definition line_coord (d : nat) (s : streak) (f : fixed) : option coord :=
  option_map (fun x => zadd (s_pre s) (removelast (fc_coord d f)) ++ [x]) (calc_x (fc_x f) s).

(** [LinePointerAssembly], [CopyCellPointer] (linepointerassembly.h:118-151):
    [pointers[INDEX]] for each index below VOLUME. *)
Definition lp_assemble (st : stencil) (loc : coord -> ptr) (s : streak) : option (list ptr) :=
  omap (fun i => obind (st_coord st i) (fun f => option_map loc (line_coord (st_dim st) s f))) (zrange 0 (st_volume st)).

(** ** LinePointerNeighborhood *)

Record flags := mkFlags { west : bool; east : bool; top : bool; bottom : bool; south : bool; north : bool }.

Section Update.
Context {C : Type} (st : stencil).
(* what update() makes of the cells of the neighborhood, in the order of the
   stencil's table, and of the target cell's former content *)
Context (upd : list C -> C -> C).

(** [LinePointerNeighborhood::operator[]] (linepointerneighborhood.h:19-315).
    Overload resolution prefers functions to templates, i.e. West and East, and
    among the latter the more specialized ones: Top and Bottom, then North and
    South, then the general one. *)
Definition lp_access (old : vgrid C) (fl : flags) (ps : list ptr) (offset : Z) (f : fixed) : option C :=
  let at_ (x y z k : Z) := obind (st_offset st (FC x y z)) (fun i => obind (vec_get ps i) (fun p => deref old p k)) in
  let X := fc_x f in let Y := fc_y f in let Z := fc_z f in
  if west fl && (X =? -1) then at_ (-1) Y Z 0
  else if east fl && (X =? 1) then at_ 1 Y Z 0
  else if top fl && (Y =? -1) then at_ 0 (-1) Z 0
  else if bottom fl && (Y =? 1) then at_ 0 1 Z 0
  else if north fl && (Z =? 1) then at_ 0 Y 1 0
  else if south fl && (Z =? -1) then at_ 0 Y (-1) 0
  else at_ 0 Y Z (X + offset).

(** What update() gets to see: the neighborhood evaluated at the coordinates
    of the stencil. *)
Definition hood_values (hood : fixed -> option C) : option (list C) :=
  omap (fun e => hood (snd e)) (st_table st).

(** ** LinePointerUpdateFunctor *)

(** The recursion over the axes (linepointerupdatefunctor.h:59-106): flags
    for the two most significant axes. *)
Definition lp_flags (t : topology) (s : streak) (b : box) : bool -> bool -> flags :=
  let c := s_origin s in
  let high i := negb (wraps_axis t i) && (axis i c =? axis i (b_origin b) + axis i (b_dim b) - 1) in
  let low i := negb (wraps_axis t i) && (axis i c =? axis i (b_origin b)) in
  let d := st_dim st in
  fun w e => mkFlags w e
    ((1 <? Z.of_nat d) && low 1%nat) ((1 <? Z.of_nat d) && high 1%nat)
    ((2 <? Z.of_nat d) && low 2%nat) ((2 <? Z.of_nat d) && high 2%nat).

(** [updateWrapper] (linepointerupdatefunctor.h:158-164), from [x] on for
    [n] cells. *)
Fixpoint lp_loop (old : vgrid C) (fl : flags) (ps : list ptr) (line : ptr) (n : nat) (x : Z) (g : vgrid C) : option (vgrid C) :=
  match n with
  | O => Some g
  | S n' =>
      obind (hood_values (lp_access old fl ps x)) (fun vs =>
      obind (deref g line x) (fun v =>
      obind (store g line x (upd vs v)) (lp_loop old fl ps line n' (x + 1))))
  end.

(** [operator()] (linepointerupdatefunctor.h:115-150); [line] is newLine. *)
Definition lp_line (t : topology) (old : vgrid C) (b : box) (s : streak) (ps : list ptr) (line : ptr) (g : vgrid C) : option (vgrid C) :=
  let fl := lp_flags t s b in
  let endX := s_e s - s_x s in
  if s_e s =? s_x s + 1 then lp_loop old (fl true true) ps line (Z.to_nat endX) 0 g
  else
    obind (lp_loop old (fl true false) ps line 1 0 g) (fun g1 =>
    obind (lp_loop old (fl false false) ps line (Z.to_nat (endX - 1 - 1)) 1 g1) (fun g2 =>
    let x := Z.max 1 (endX - 1) in
    lp_loop old (fl false true) ps line (Z.to_nat (endX - x)) x g2)).

(** ** VanillaUpdateFunctor (vanillaupdatefunctor.h:18-34), CoordMap
    (coordmap.h:34-43) *)
Fixpoint van_loop (old : vgrid C) (loc locN : coord -> ptr) (n : nat) (spre tpre : coord) (sx tx : Z) (g : vgrid C) : option (vgrid C) :=
  match n with
  | O => Some g
  | S n' =>
      obind (hood_values (fun f => deref old (loc (zadd (spre ++ [sx]) (fc_coord (st_dim st) f))) 0)) (fun vs =>
      obind (deref g (locN (tpre ++ [tx])) 0) (fun v =>
      obind (store g (locN (tpre ++ [tx])) 0 (upd vs v)) (van_loop old loc locN n' spre tpre (sx + 1) (tx + 1))))
  end.

(** ** UpdateFunctor *)

(** LGD_UPDATE_FUNCTOR_BODY of the path for cells with fixed coordinates
    (updatefunctor.h:161-170). The pointers are assembled for the Streak of the
    region, not for the displaced one. *)
Definition lp_body (t : topology) (old : vgrid C) (loc : coord -> ptr) (b : box) (locN : coord -> ptr) (soff toff : coord)
    (i : streak) (g : vgrid C) : option (vgrid C) :=
  obind (lp_assemble st loc i) (fun ps =>
  lp_line t old b (move_streak i soff) ps (locN (zadd (s_origin i) toff)) g).

(** The same for all other cells (updatefunctor.h:203-209). *)
Definition van_body (old : vgrid C) (loc : coord -> ptr) (locN : coord -> ptr) (soff toff : coord)
    (i : streak) (g : vgrid C) : option (vgrid C) :=
  let s := move_streak i soff in
  let o := zadd (s_origin i) toff in
  van_loop old loc locN (Z.to_nat (s_e s - s_x s)) (s_pre s) (removelast o) (s_x s) (last o 0) g.
End Update.

(** Running a body for Streaks in a given order. Without threads, this is the
    order of the region (updatefunctormacros.h:148-154). *)
Fixpoint run_bodies {C} (body : streak -> vgrid C -> option (vgrid C)) (ss : list streak) (g : vgrid C) : option (vgrid C) :=
  match ss with [] => Some g | i :: ss' => obind (body i g) (run_bodies body ss') end.

(** Fine-grained parallelism cuts Streaks into pieces
    (updatefunctormacros.h:41-63), which are then handed to the threads in any
    order. [Z.rem] is the operator % of C++; [None] also stands for division by
    zero and for an endless loop. *)
Fixpoint tranches (fuel : nat) (gran : Z) (s : streak) : option (list streak) :=
  if s_e s - s_x s >? gran then
    match fuel with
    | O => None
    | S n =>
        if gran =? 0 then None
        else let e := s_x s + gran - Z.rem (s_x s) gran in
             option_map (cons (mkStreak (s_pre s) (s_x s) e)) (tranches n gran (mkStreak (s_pre s) e (s_e s)))
    end
  else Some [s].

Definition cut_streak (gran : Z) (s : streak) : option (list streak) := tranches (Z.to_nat (s_e s - s_x s)) gran s.

Fixpoint cut_streaks (gran : Z) (ss : list streak) : option (list streak) :=
  match ss with
  | [] => Some []
  | s :: ss' => obind (cut_streak gran s) (fun a => option_map (app a) (cut_streaks gran ss'))
  end.
