(** Grids on the device, regions on the device, and the CUDAStepper's kernel.
    Definitions only.

    Sources: storage/cudagrid.h, geometry/cudaregion.h,
    parallelization/nesting/cudastepper.h, all below
    /repo/src/libgeodecomp, and cuda_array.hpp from
    /repo/lib/libflatarray/include/libflatarray.

    The arrays on the device are lists. Copies to, from or beyond the end of
    an array, and from or to more than the one edge cell, are undefined.
    Integers are unbounded. Copying bytes of a cell copies the cell. Failing
    calls of the CUDA runtime, and the copies of single members (Selectors), are
    not modelled. An update is atomic, see CudaModel. *)
From Verif Require Import Base RegionSpec RegionModel RegionIterModel RegionOpsModel CoordModel PatchModel GridModel StencilModel UpdateModel.

(** How a call may end: regularly, with std::logic_error, or undefined. *)
Inductive result (A : Type) := Done (a : A) | Throws | Undefined.
Arguments Done {A} a. Arguments Throws {A}. Arguments Undefined {A}.

Definition defined {A} (o : option A) : result A := match o with Some a => Done a | None => Undefined end.

(** ** CUDAGrid *)

(** Members (cudagrid.h:266-269, gridbase.h:83-85): [cg_store] is the edge
    cell on the device, [cg_host] the host's copy. *)
Record cgrid (C : Type) := mkCGrid { cg_box : box; cg_topo : coord; cg_cells : list C; cg_store : C; cg_host : C }.
Arguments mkCGrid {C} cg_box cg_topo cg_cells cg_store cg_host. Arguments cg_box {C} c. Arguments cg_topo {C} c.
Arguments cg_cells {C} c. Arguments cg_store {C} c. Arguments cg_host {C} c.

(** The constructor (cudagrid.h:36-46); the one for a region (48-58) takes its
    bounding box. *)
Definition cg_make {C} (b : box) (dflt edge : C) (topo : coord) : cgrid C :=
  mkCGrid b topo (repeat dflt (Z.to_nat (prod (b_dim b)))) edge edge.

Definition cg_with {C} (g : cgrid C) (l : list C) : cgrid C := mkCGrid (cg_box g) (cg_topo g) l (cg_store g) (cg_host g).

(** Pointers: to the edge cell or to a cell of the array. *)
Inductive addr := AEdge | ACell (i : Z).

Section CudaGrid.
Context {C : Type} (t : topology) (correct : bool).

(** [toRelativeCoord] (cudagrid.h:276-284) *)
Definition cg_coord (g : cgrid C) (c : coord) : coord :=
  let rel := zsub c (b_origin (cg_box g)) in if correct then normalize t rel (cg_topo g) else rel.

(** [address] (cudagrid.h:286-306) *)
Definition cg_address (g : cgrid C) (c : coord) : addr :=
  let rel := cg_coord g c in
  if out_of_bounds t rel (b_dim (cg_box g)) then AEdge else ACell (to_index rel (b_dim (cg_box g))).

(** [cudaMemcpy] of [n] cells from and to a given address. *)
Definition cg_read (g : cgrid C) (a : addr) (n : nat) : option (list C) :=
  match a with
  | AEdge => vec_read [cg_store g] 0 n
  | ACell i => vec_read (cg_cells g) i n
  end.

Definition cg_write (g : cgrid C) (a : addr) (n : nat) (vs : list C) : option (cgrid C) :=
  match a with
  | AEdge => option_map (fun l => mkCGrid (cg_box g) (cg_topo g) (cg_cells g) (hd (cg_store g) l) (cg_host g)) (vec_write [cg_store g] 0 n vs)
  | ACell i => option_map (cg_with g) (vec_write (cg_cells g) i n vs)
  end.

(** [setEdge] (cudagrid.h:123-127) *)
Definition cg_set_edge (g : cgrid C) (v : C) : cgrid C := mkCGrid (cg_box g) (cg_topo g) (cg_cells g) v v.

(** [get] (cudagrid.h:107-114), [set] (88-98) *)
Definition cg_get (g : cgrid C) (c : coord) : option C := option_map (hd (cg_store g)) (cg_read g (cg_address g c) 1).

Definition cg_set (g : cgrid C) (c : coord) (v : C) : option (cgrid C) :=
  let a := cg_address g c in
  cg_write (match a with AEdge => cg_set_edge g v | ACell _ => g end) a 1 [v].

(** The same for Streaks (cudagrid.h:116-121, 100-105) *)
Definition streak_count (s : streak) : option nat := if s_e s <? s_x s then None else Some (Z.to_nat (s_e s - s_x s)).

Definition cg_get_streak (g : cgrid C) (s : streak) : option (list C) :=
  obind (streak_count s) (cg_read g (cg_address g (s_origin s))).

Definition cg_set_streak (g : cgrid C) (s : streak) (vs : list C) : option (cgrid C) :=
  obind (streak_count s) (fun n => cg_write g (cg_address g (s_origin s)) n vs).

(** Histories of write accesses. *)
Definition cg_op (g : cgrid C) (o : gop C) : option (cgrid C) :=
  match o with
  | GSet c v => cg_set g c v
  | GSetStreak s vs => cg_set_streak g s vs
  | GSetEdge v => Some (cg_set_edge g v)
  end.

Fixpoint cg_ops (g : cgrid C) (l : list (gop C)) : option (cgrid C) :=
  match l with [] => Some g | o :: l' => obind (cg_op g o) (fun g' => cg_ops g' l') end.

(** ** Regions *)

(** The loops of [saveRegion] and [loadRegion] (cudagrid.h:148-157, 169-178). *)
Fixpoint cg_save_streaks (g : cgrid C) (off : coord) (ss : list streak) : option (list C) :=
  match ss with
  | [] => Some []
  | s :: ss' =>
      obind (streak_count s) (fun n => obind (cg_read g (cg_address g (zadd (s_origin s) off)) n) (fun vs =>
      option_map (app vs) (cg_save_streaks g off ss')))
  end.

Fixpoint cg_load_streaks (g : cgrid C) (off : coord) (ss : list streak) (vs : list C) : option (cgrid C) :=
  match ss with
  | [] => Some g
  | s :: ss' =>
      obind (streak_count s) (fun n => obind (cg_write g (cg_address g (zadd (s_origin s) off)) n vs) (fun g' =>
      cg_load_streaks g' off ss' (skipn n vs)))
  end.

Definition streaks_size (ss : list streak) : Z := fold_right (fun s a => s_e s - s_x s + a) 0 ss.

(** [saveRegion] (cudagrid.h:139-158) to a buffer of the given size: the cells
    at its beginning. *)
Definition cg_save (g : cgrid C) (r : indices) (off : coord) (size : Z) : result (list C) :=
  match reg_streaks r with
  | Some ss => if size <? streaks_size ss then Throws else defined (cg_save_streaks g off ss)
  | None => Undefined
  end.

(** [loadRegion] (cudagrid.h:160-179) *)
Definition cg_load (g : cgrid C) (r : indices) (off : coord) (vs : list C) : result (cgrid C) :=
  match reg_streaks r with
  | Some ss => if Z.of_nat (length vs) <? streaks_size ss then Throws else defined (cg_load_streaks g off ss vs)
  | None => Undefined
  end.

(** The address of [target[c]] for a DisplacedGrid on the host (displacedgrid.h:202-214,
    topologies.h:201-215): the address within its vector. Copies of more than
    one edge cell are undefined, too. *)
Definition host_address (d : dgrid C) (c : coord) : addr :=
  let rel := dg_coord t correct d c in
  let dim := g_dim (d_grid d) in
  if out_of_bounds t rel dim then AEdge else ACell (to_index (normalize_edges rel dim) dim).

Definition host_read (d : dgrid C) (a : addr) (n : nat) : option (list C) :=
  match a with AEdge => vec_read [g_edge (d_grid d)] 0 n | ACell i => vec_read (g_cells (d_grid d)) i n end.

Definition host_write (d : dgrid C) (a : addr) (n : nat) (vs : list C) : option (dgrid C) :=
  let g := d_grid d in
  match a with
  | AEdge => option_map (fun l => dg_with d (mkVGrid (g_dim g) (g_cells g) (hd (g_edge g) l))) (vec_write [g_edge g] 0 n vs)
  | ACell i => option_map (fun l => dg_with d (mkVGrid (g_dim g) l (g_edge g))) (vec_write (g_cells g) i n vs)
  end.

(** [saveRegion], [loadRegion] for grids (cudagrid.h:181-202) *)
Fixpoint cg_save_grid (g : cgrid C) (d : dgrid C) (ss : list streak) : option (dgrid C) :=
  match ss with
  | [] => Some d
  | s :: ss' =>
      obind (streak_count s) (fun n =>
      obind (cg_read g (cg_address g (s_origin s)) n) (fun vs =>
      obind (host_write d (host_address d (s_origin s)) n vs) (fun d' => cg_save_grid g d' ss')))
  end.

Fixpoint cg_load_grid (d : dgrid C) (g : cgrid C) (ss : list streak) : option (cgrid C) :=
  match ss with
  | [] => Some g
  | s :: ss' =>
      obind (streak_count s) (fun n =>
      obind (host_read d (host_address d (s_origin s)) n) (fun vs =>
      obind (cg_write g (cg_address g (s_origin s)) n vs) (fun g' => cg_load_grid d g' ss')))
  end.
End CudaGrid.

(** ** CUDARegion *)

(** [addCoord] (cudaregion.h:50-66): X first. *)
Definition add_coord (buf : list Z) (c : coord) (index stride : Z) : option (list Z) :=
  fold_left (fun acc kx => obind acc (fun b => vec_set b (Z.of_nat (fst kx) * stride + index) (snd kx)))
    (combine (seq 0 (length c)) (rev c)) (Some buf).

Fixpoint add_coords (buf : list Z) (cs : list coord) (index stride : Z) : option (list Z) :=
  match cs with
  | [] => Some buf
  | c :: cs' => obind (add_coord buf c index stride) (fun b => add_coords b cs' (index + 1) stride)
  end.

(** The constructor (cudaregion.h:21-34) for the coordinates of a region. *)
Definition cuda_region (d : nat) (cs : list coord) : option (list Z) :=
  let n := Z.of_nat (length cs) in
  add_coords (repeat 0 (d * length cs)) cs 0 n.

(** [LoadAbsoluteCoord] (cudastepper.h:24-54) *)
Definition load_coord (d : nat) (buf : list Z) (index size : Z) : option coord :=
  option_map (@rev Z) (omap (fun k => vec_get buf (index + Z.of_nat k * size)) (seq 0 d)).

(** ** The kernel *)

(** One axis in [SimpleHood::operator[]] (cudastepper.h:88-101): [None] is the
    edge. *)
Definition hood_axis (w : bool) (n x : Z) : option Z :=
  obind (if x <? 0 then if w then Some (x + n) else None else Some x) (fun x =>
  if x >=? n then if w then Some (x - n) else None else Some x).

(** All of them; the code starts with the X axis, but any order leads to the
    same result. *)
Fixpoint hood_coord (t : topology) (dim c : coord) : option coord :=
  match t, dim, c with
  | w :: t', n :: dim', x :: c' => obind (hood_axis w n x) (fun y => option_map (cons y) (hood_coord t' dim' c'))
  | _, _, _ => Some []
  end.

(** The index (cudastepper.h:118, 199); there are SimpleHoods for two and three
    dimensions only. *)
Definition hood_index (dim c : coord) : option Z :=
  match dim, c with
  | [_; nx], [y; x] => Some (y * nx + x)
  | [_; ny; nx], [z; y; x] => Some (z * nx * ny + y * nx + x)
  | _, _ => None
  end.

Section Kernel.
Context {C : Type} (t : topology) (st : stencil).
(* updateCUDA(): by nano step, what it makes of the neighbors, in the order of the
   stencil's table, and of the cell's former content *)
Context (upd : nat -> list C -> C -> C).

(** [SimpleHood::operator[]] (cudastepper.h:81-119, 146-200) *)
Definition simple_hood (dim rel : coord) (old : list C) (edge : C) (f : fixed) : option C :=
  match hood_coord t dim (zadd rel (fc_coord (st_dim st) f)) with
  | Some c => obind (hood_index dim c) (vec_get old)
  | None => Some edge
  end.

(** [updateKernel] (cudastepper.h:227-245) for a thread of the given block *)
Definition update_thread (b : box) (nano : nat) (old : list C) (edge : C) (coords : list Z) (size : Z) (block : Z) (new : list C) : option (list C) :=
  if block >=? size then Some new
  else
    obind (load_coord (length (b_dim b)) coords block size) (fun c =>
    let rel := zsub c (b_origin b) in
    let i := to_index rel (b_dim b) in
    obind (hood_values st (simple_hood (b_dim b) rel old edge)) (fun vs =>
    obind (vec_get new i) (fun v => vec_set new i (upd nano vs v)))).

(** The launch (cudastepper.h:350-360): grid and block size; every block has
    as many threads as the block's size, all of which do the same. [order] is
    the order in which the threads take effect, each given by its block. *)
Definition kernel_grid : Z := 200.
Definition kernel_block : nat := 512.
Definition kernel_threads (grid : Z) (block : nat) : list Z := flat_map (fun b => repeat b block) (zrange 0 grid).

Fixpoint run_threads (b : box) (nano : nat) (old : list C) (edge : C) (coords : list Z) (size : Z) (order : list Z) (new : list C) : option (list C) :=
  match order with
  | [] => Some new
  | k :: order' => obind (update_thread b nano old edge coords size k new) (run_threads b nano old edge coords size order')
  end.
End Kernel.
