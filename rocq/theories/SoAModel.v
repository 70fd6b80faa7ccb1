(** Regular grids with a Struct of Arrays layout: SoAGrid, LibFlatArray's
    soa_grid below it, and FixedNeighborhoodUpdateFunctor, which updates such
    grids. Definitions only.

    Sources: storage/soagrid.h, storage/fixedneighborhood.h,
    storage/fixedneighborhoodupdatefunctor.h, storage/updatefunctor.h, all
    below /repo/src/libgeodecomp, and soa_grid.hpp, macros.hpp, api_traits.hpp,
    detail/macros.hpp and the functors below detail/ from
    /repo/lib/libflatarray/include/libflatarray.

    A cell is stored as one entry per member, in as many arrays, all of which
    use the same index. The model keeps one list of cells instead; buffers for
    regions, however, are split by members. [None] is an exception
    (out_of_range, invalid_argument, logic_error) or undefined behaviour:
    accesses outside of the arrays. Integers are unbounded; negative
    coordinates cast to [std::size_t] and back are unchanged. Accessors for
    CUDA are not modelled. Coordinates in the layout have always three
    components, most significant first. *)
From Verif Require Import Base RegionSpec RegionModel RegionIterModel RegionOpsModel CoordModel PatchModel GridModel StencilModel UpdateModel.

(** The components which a coordinate lacks are filled up. *)
Definition pad (v : Z) (c : coord) : coord := repeat v (3 - length c) ++ c.

(** ** LibFlatArray *)

(** [gen_index] (macros.hpp:143-146) for the extents of an accessor. *)
Definition gen_index (ext c : coord) : Z :=
  match ext, c with [_; ey; ex], [z; y; x] => z * ex * ey + y * ex + x | _, _ => 0 end.

(** Choosing the extents for given dimensions: the first size which is large
    enough (detail/macros.hpp:316-360). *)
Definition first_fit (sizes : list Z) (n : Z) : option Z := find (fun s => n <=? s) sizes.

(** [LIBFLATARRAY_CUSTOM_SIZES] (macros.hpp:948-1061) *)
Definition custom_sizes (xs ys zs : list Z) (dim : coord) : option coord :=
  match dim with
  | [z; y; x] =>
      obind (first_fit xs x) (fun ex => obind (first_fit ys y) (fun ey => option_map (fun ez => [ez; ey; ex]) (first_fit zs z)))
  | _ => None
  end.

(** [LIBFLATARRAY_CUSTOM_SIZES_1D_UNIFORM] (macros.hpp:1063-1113), 2D
    (1115-1160), 3D (1162-1201) *)
Definition uniform_1d (sizes : list Z) (dim : coord) : option coord :=
  match dim with
  | [z; y; x] => if y =? 1 then if z =? 1 then option_map (fun e => [1; 1; e]) (first_fit sizes x) else None else None
  | _ => None
  end.
Definition uniform_2d (sizes : list Z) (dim : coord) : option coord :=
  match dim with
  | [z; y; x] => if z =? 1 then option_map (fun e => [1; e; e]) (first_fit sizes (Z.max x y)) else None
  | _ => None
  end.
Definition uniform_3d (sizes : list Z) (dim : coord) : option coord :=
  match dim with
  | [z; y; x] => option_map (fun e => [e; e; e]) (first_fit sizes (Z.max x (Z.max y z)))
  | _ => None
  end.

(** The default of [select_sizes] (api_traits.hpp:61-175): *)
Definition sizes_1d : list Z :=
  [32; 64; 128; 192; 256; 512; 544; 1056; 2080; 4128; 8224; 16416; 32800; 65568; 131104; 262176; 524320; 1048608;
   2097184; 4194336; 8388640; 16777248; 33554464; 67108896; 134217760; 268435488; 536870944; 1073741856].
Definition sizes_2d : list Z := [32; 64; 128; 192; 256; 512; 544; 1056; 2080; 4128; 8224; 16416; 32800].
Definition sizes_3d : list Z := [32; 64; 128; 136; 192; 200; 256; 264; 512; 520; 1032].
Definition default_sizes (dim : coord) : option coord :=
  match dim with
  | [z; y; _] =>
      if (1 <? y) && (1 <? z) then uniform_3d sizes_3d dim
      else if 1 <? y then uniform_2d sizes_2d dim else uniform_1d sizes_1d dim
  | _ => None
  end.

(** [for (a : l) f(a)] *)
Fixpoint each {A S} (f : A -> S -> option S) (l : list A) (s : S) : option S :=
  match l with [] => Some s | a :: l' => obind (f a s) (each f l') end.

(** ** SoAGrid *)

(** [for (; x < stop; ++x) { accessor << v; ++accessor.index(); }] *)
Definition fill {C} (v : C) (x stop i : Z) (m : list C) : option (list C) :=
  vec_write m i (Z.to_nat (stop - x)) (repeat v (Z.to_nat (stop - x))).

(** One row in [SetContent] (soagrid.h:78-104): the edge on the left, the
    interior, which may be left out, and the edge on the right. *)
Definition sc_row {C} (init : bool) (gx rx : Z) (edge inner : C) (on_edge : bool) (i : Z) (m : list C) : option (list C) :=
  obind (fill edge 0 rx i m) (fun m1 =>
  let x1 := Z.max 0 rx in
  let i1 := i + x1 in
  let fills := on_edge || init in
  obind (if fills then fill (if on_edge then edge else inner) x1 (gx - rx) i1 m1 else Some m1) (fun m2 =>
  let x2 := if fills then Z.max x1 (gx - rx) else x1 + (gx - 2 * rx) in
  fill edge x2 gx (i1 + (x2 - x1)) m2)).

(** [SetContent::operator()] (soagrid.h:60-108) *)
Definition set_content {C} (init : bool) (ext act rad : coord) (edge inner : C) (m : list C) : option (list C) :=
  match ext, act, rad with
  | [_; ey; ex], [gz; gy; gx], [rz; ry; rx] =>
      each (fun z m =>
        let edge1 := (z <? rz) || (gz - rz <=? z) in
        each (fun y m =>
          let edge2 := edge1 || (y <? ry) || (gy - ry <=? y) in
          sc_row init gx rx edge inner edge2 (z * ex * ey + y * ex) m) (zrange 0 gy) m) (zrange 0 gz) m
  | _, _, _ => None
  end.

(** [calcEdgeRadii] (soagrid.h:578-584): none along axes which wrap or don't
    exist. [R] is the radius of the stencil. *)
Definition edge_radii (t : topology) (R : Z) : coord := pad 0 (map (fun w : bool => if w then 0 else R) t).

(** Members (soagrid.h:677-682, gridbase.h:83-85) and those of the delegate
    (soa_grid.hpp: my_dim_x etc., my_data). The dimensions of both agree. *)
Record sgrid (C : Type) := mkSGrid { sg_box : box; sg_topo : coord; sg_edge : C; sg_rad : coord; sg_act : coord; sg_mem : list C }.
Arguments mkSGrid {C} sg_box sg_topo sg_edge sg_rad sg_act sg_mem. Arguments sg_box {C} s. Arguments sg_topo {C} s. Arguments sg_edge {C} s.
Arguments sg_rad {C} s. Arguments sg_act {C} s. Arguments sg_mem {C} s.

Section SoA.
Context {C : Type} (t : topology) (correct : bool) (R : Z).
(** [select_sizes] for this kind of cell *)
Context (sizes : coord -> option coord).
(** What is found in memory which has just been allocated. *)
Context (junk : Z -> C).

Definition sg_with (g : sgrid C) (m : list C) : sgrid C := mkSGrid (sg_box g) (sg_topo g) (sg_edge g) (sg_rad g) (sg_act g) m.

(** [soa_grid::resize] (soa_grid.hpp:131-154) *)
Definition mem_resize (dim : coord) (m : list C) (ndim : coord) : option (list C) :=
  if CoordModel.coord_eqb dim ndim then Some m
  else option_map (fun ext => map junk (zrange 0 (prod ext))) (sizes ndim).

(** [setEdge] (soagrid.h:486-494) *)
Definition sg_set_edge (g : sgrid C) (v : C) : option (sgrid C) :=
  obind (sizes (sg_act g)) (fun ext =>
  option_map (fun m => mkSGrid (sg_box g) (sg_topo g) v (sg_rad g) (sg_act g) m)
    (set_content false ext (sg_act g) (sg_rad g) v v (sg_mem g))).

(** [resize] (soagrid.h:403-427) without and with [setEdges] *)
Definition sg_resize0 (g : sgrid C) (b : box) : option (sgrid C) :=
  let act := zadd (pad 1 (b_dim b)) (map (fun r => r * 2) (sg_rad g)) in
  option_map (fun m => mkSGrid b (sg_topo g) (sg_edge g) (sg_rad g) act m) (mem_resize (sg_act g) (sg_mem g) act).

Definition sg_resize (g : sgrid C) (b : box) : option (sgrid C) :=
  obind (sg_resize0 g b) (fun g' => sg_set_edge g' (sg_edge g')).

(** The constructors (soagrid.h:367-401); the one for a region takes its
    bounding box. *)
Definition sg_make (b : box) (dflt edge : C) (topo : coord) : option (sgrid C) :=
  obind (sg_resize0 (mkSGrid b topo edge (edge_radii t R) [0; 0; 0] []) b) (fun g =>
  obind (sizes (sg_act g)) (fun ext =>
  option_map (sg_with g) (set_content true ext (sg_act g) (sg_rad g) edge dflt (sg_mem g)))).

(** The coordinate relative to the box (soagrid.h:441-444, 455-458, 465-468,
    478-481). *)
Definition sg_coord (g : sgrid C) (c : coord) : coord :=
  let rel := zsub c (b_origin (sg_box g)) in if correct then normalize t rel (sg_topo g) else rel.

(** The index used by [delegateGet], [delegateSet] (soagrid.h:684-793). *)
Definition sg_index (g : sgrid C) (ext rel : coord) : Z := gen_index ext (zadd (sg_rad g) (pad 0 rel)).

(** [get] (soagrid.h:463-474), [set] (soagrid.h:439-451) *)
Definition sg_get (g : sgrid C) (c : coord) : option C :=
  let rel := sg_coord g c in
  if out_of_bounds t rel (b_dim (sg_box g)) then Some (sg_edge g)
  else obind (sizes (sg_act g)) (fun ext => vec_get (sg_mem g) (sg_index g ext rel)).

Definition sg_set (g : sgrid C) (c : coord) (v : C) : option (sgrid C) :=
  let rel := sg_coord g c in
  if out_of_bounds t rel (b_dim (sg_box g)) then sg_set_edge g v
  else obind (sizes (sg_act g)) (fun ext => option_map (sg_with g) (vec_set (sg_mem g) (sg_index g ext rel) v)).

(** The same for Streaks (soagrid.h:476-484, 453-461), without a check
    whether they fit in. *)
Definition sg_get_streak (g : sgrid C) (s : streak) : option (list C) :=
  if s_e s <? s_x s then None
  else obind (sizes (sg_act g)) (fun ext =>
    vec_read (sg_mem g) (sg_index g ext (sg_coord g (s_origin s))) (Z.to_nat (s_e s - s_x s))).

Definition sg_set_streak (g : sgrid C) (s : streak) (vs : list C) : option (sgrid C) :=
  if s_e s <? s_x s then None
  else obind (sizes (sg_act g)) (fun ext =>
    option_map (sg_with g) (vec_write (sg_mem g) (sg_index g ext (sg_coord g (s_origin s))) (Z.to_nat (s_e s - s_x s)) vs)).

Definition sg_op (g : sgrid C) (o : gop C) : option (sgrid C) :=
  match o with
  | GSet c v => sg_set g c v
  | GSetStreak s vs => sg_set_streak g s vs
  | GSetEdge v => sg_set_edge g v
  end.

Fixpoint sg_ops (g : sgrid C) (l : list (gop C)) : option (sgrid C) :=
  match l with [] => Some g | o :: l' => obind (sg_op g o) (fun g' => sg_ops g' l') end.

(** ** Regions *)

(** A cell consists of [K] members. *)
Context {M : Type} (K : nat) (part : nat -> C -> M) (assemble : list M -> C).

(** [OffsetStreakIterator] (soagrid.h:274-332): origins with three components
    and lengths. *)
Definition offset_streak (off : coord) (s : streak) : coord * Z := (zadd off (pad 0 (s_origin s)), s_e s - s_x s).

(** [save_functor] (detail/save_functor.hpp): member [j] of the n-th cell goes
    to index [j * count + n] of the buffer, hence one member comes after the
    other. [count] is the number of cells in all streaks. *)
Fixpoint read_streaks (ext : coord) (m : list C) (ss : list (coord * Z)) : option (list C) :=
  match ss with
  | [] => Some []
  | (o, n) :: ss' => obind (vec_read m (gen_index ext o) (Z.to_nat n)) (fun a => option_map (app a) (read_streaks ext m ss'))
  end.

Definition mem_save (ext : coord) (m : list C) (ss : list (coord * Z)) : option (list M) :=
  option_map (fun cells => flat_map (fun j => map (part j) cells) (seq 0 K)) (read_streaks ext m ss).

(** [load_functor] (detail/load_functor.hpp): the members of the n-th cell
    are found at a distance of [count]. *)
Definition unpack (buf : list M) (count n : Z) : option C :=
  option_map assemble (omap (fun j => vec_get buf (Z.of_nat j * count + n)) (seq 0 K)).

Fixpoint mem_load (ext : coord) (buf : list M) (count : Z) (ss : list (coord * Z)) (off : Z) (m : list C) : option (list C) :=
  match ss with
  | [] => Some m
  | (o, n) :: ss' =>
      obind (omap (unpack buf count) (zrange off (off + n))) (fun vs =>
      obind (vec_write m (gen_index ext o) (Z.to_nat n) vs) (mem_load ext buf count ss' (off + n)))
  end.

Definition sum_lengths (ss : list (coord * Z)) : Z := fold_right (fun s a => snd s + a) 0 ss.

(** [saveRegion] (soagrid.h:523-535), [loadRegion] (soagrid.h:551-563,
    635-645). A buffer must not be too small. [size] of a region is the sum of
    the lengths of its streaks. *)
Definition sg_offset (g : sgrid C) (off : coord) : coord := zadd (sg_rad g) (pad 0 (zsub off (b_origin (sg_box g)))).

Definition sg_save (g : sgrid C) (r : indices) (off : coord) : option (list M) :=
  obind (reg_streaks r) (fun ss =>
  obind (sizes (sg_act g)) (fun ext => mem_save ext (sg_mem g) (map (offset_streak (sg_offset g off)) ss))).

Definition sg_load (g : sgrid C) (r : indices) (off : coord) (buf : list M) : option (sgrid C) :=
  obind (reg_streaks r) (fun ss =>
  let os := map (offset_streak (sg_offset g off)) ss in
  let count := sum_lengths os in
  if Z.of_nat (length buf) <? Z.of_nat K * count then None
  else obind (sizes (sg_act g)) (fun ext => option_map (sg_with g) (mem_load ext buf count os 0 (sg_mem g)))).

(** [saveRegionImplementation] (soagrid.h:537-549) *)
Definition sg_save_impl (g : sgrid C) (ss : list streak) : option (list M) :=
  let off := [0; 0; - last (b_origin (sg_box g)) 0] in
  obind (sizes (sg_act g)) (fun ext => mem_save ext (sg_mem g) (map (offset_streak off) ss)).

(** ** Updates *)

(** The offsets for the six sides, (west, east), (top, bottom), (south, north) *)
Record sides := mkSides { sd_w : Z; sd_e : Z; sd_t : Z; sd_b : Z; sd_s : Z; sd_n : Z }.

(** [FixedNeighborhood::operator[]] (fixedneighborhood.h:65-83) together with
    LIBFLATARRAY_INDEX (detail/macros.hpp:30-31): the index of the cell which
    [FixedCoord] denotes. *)
Definition fn_index (ext : coord) (sd : sides) (index : Z) (f : fixed) : Z :=
  index + gen_index ext [fc_z f; fc_y f; fc_x f] +
  gen_index ext
    [(if fc_z f <? 0 then sd_s sd else 0) + (if fc_z f >? 0 then sd_n sd else 0);
     (if fc_y f <? 0 then sd_t sd else 0) + (if fc_y f >? 0 then sd_b sd else 0);
     (if fc_x f <? 0 then sd_w sd else 0) + (if fc_x f >? 0 then sd_e sd else 0)].

(** The user's [updateLineX(hoodOld, indexEnd, hoodNew, nanoStep)]: updates
    one cell after the other until [hoodOld.index()] has reached the end. What
    a cell gets to see are the values at the coordinates it accesses. *)
Context (acc : list fixed) (upd : list C -> C -> C).

Fixpoint line_x (ext : coord) (sd : sides) (old : list C) (n : nat) (i iN : Z) (m : list C) : option (list C) :=
  match n with
  | O => Some m
  | S n' =>
      obind (omap (fun f => vec_get old (fn_index ext sd i f)) acc) (fun vs =>
      obind (vec_get m iN) (fun v =>
      obind (vec_set m iN (upd vs v)) (line_x ext sd old n' (i + 1) (iN + 1))))
  end.

(** Whether [updateLineX] takes its parameters by value. The index of
    [hoodOld] advances in any case, as FixedNeighborhood refers to an accessor;
    the one of [hoodNew] doesn't if the accessor is copied. *)
Context (by_value : bool).

(** One call: [(hoodOld.index(), hoodNew.index(), memory)] before and after. *)
Definition call_line (ext : coord) (sd : sides) (old : list C) (stop : Z) (s : Z * Z * list C) : option (Z * Z * list C) :=
  let '(i, iN, m) := s in
  option_map (fun m' => (Z.max i stop, if by_value then iN else iN + Z.max 0 (stop - i), m'))
    (line_x ext sd old (Z.to_nat (stop - i)) i iN m).

(** [*topologicalDimensions != Coord<DIM>()] *)
Definition has_topo (topo : coord) : bool := negb (forallb (Z.eqb 0) topo).

(** The part of [Invoke] for the most significant axes
    (fixedneighborhoodupdatefunctor.h:38-112): is the streak next to the lower
    or upper boundary of an axis which wraps? Only axes which exist are
    visited. *)
Definition at_side (dimO topo origin : coord) (i : nat) (high : bool) : bool :=
  let o := if has_topo topo then normalize t origin topo else origin in
  (i <? length t)%nat && wraps_axis t i && (axis i o =? (if high then axis i dimO - 1 else 0)).

(** [Invoke] for the streak of a region (fixedneighborhoodupdatefunctor.h:38-112,
    132-255). [offO], [offN] are the offsets for the old and the new grid, [dimO],
    [dimN] the dimensions of their boxes. *)
Definition soa_body (ext : coord) (old : list C) (offO offN dimO dimN topo : coord) (s : streak) (m : list C) : option (list C) :=
  let oO := zadd (s_origin s) offO in
  let oN := zadd (s_origin s) offN in
  let top := if at_side dimO topo oO 1 false then axis 1 dimN else 0 in
  let bottom := if at_side dimO topo oO 1 true then - axis 1 dimN else 0 in
  let south := if at_side dimO topo oO 2 false then axis 2 dimN else 0 in
  let north := if at_side dimO topo oO 2 true then - axis 2 dimN else 0 in
  let norm := has_topo topo && negb (out_of_bounds t oO topo) in
  let origO := if norm then normalize t oO topo else oO in
  let origN := if norm then normalize t oN topo else oN in
  let i := gen_index ext (pad 0 origO) in
  let iN := gen_index ext (pad 0 origN) in
  let stop := i + (s_e s - s_x s) in
  let x := axis 0 origO in
  let nx := axis 0 dimN in
  let wx := wraps_axis t 0 in
  let at_ w e := mkSides w e top bottom south north in
  (* special case: on left boundary *)
  obind (if wx && (x =? 0) then call_line ext (at_ nx (if x + 1 =? nx then - nx else 0)) old (i + 1) (i, iN, m)
         else Some (i, iN, m)) (fun s1 =>
  option_map snd
    (* other special case: right boundary *)
    (if wx && (x + (s_e s - s_x s) =? nx) then
       obind (call_line ext (at_ 0 0) old (stop - 1) s1) (call_line ext (at_ 0 (- nx)) old stop)
     else call_line ext (at_ 0 0) old stop s1)).

(** [UpdateFunctor::operator()] for Struct of Arrays (updatefunctor.h:97-138)
    with the streaks in a given order. Grids of different sizes throw
    (soa_grid.hpp, assert_same_grid_sizes), unless the cell asks for asymmetric
    callbacks, which is not modelled. *)
Definition sg_update (old new : sgrid C) (soff toff : coord) (ss : list streak) : option (sgrid C) :=
  if CoordModel.coord_eqb (sg_act old) (sg_act new) then
    obind (sizes (sg_act old)) (fun ext =>
    let low g := skipn (3 - length t) (sg_rad g) in
    let offO := zadd (zsub soff (b_origin (sg_box old))) (low old) in
    let offN := zadd (zsub toff (b_origin (sg_box new))) (low new) in
    option_map (sg_with new)
      (each (soa_body ext (sg_mem old) offO offN (b_dim (sg_box old)) (b_dim (sg_box new)) (sg_topo old)) ss (sg_mem new)))
  else None.
End SoA.
