(** LibFlatArray's soa_grid as a value (construction, copies, swap) and
    soa_vector, which is built on it. Definitions only.

    Sources: soa_grid.hpp, soa_vector.hpp and detail/load_functor.hpp,
    detail/copy_functor.hpp, detail/set_byte_size_functor.hpp, all below
    /repo/lib/libflatarray/include/libflatarray.

    As in SoAModel the arrays of members are one list of cells. What members'
    constructors yield is not modelled: new memory may contain anything. Cells
    are assumed to have at least two members, hence the start of the arrays
    depends on the extents. [None] is an exception or undefined behaviour. The
    staging buffers only forward pointers (on CPUs), [my_byte_size] always
    belongs to [my_data]. *)
From Verif Require Import Base RegionSpec RegionOpsModel CoordModel GridModel SoAModel.

Section FlatGrid.
Context {C : Type} (sizes : coord -> option coord) (junk : Z -> C) (lost : coord).

(** [my_dim_*], [my_extent_*] (most significant first), [my_data]
    (soa_grid.hpp:399-406). [lost] is found in members which haven't been
    initialised. *)
Record fgrid := mkFG { fg_dim : coord; fg_ext : coord; fg_mem : list C }.

(** [resize] (soa_grid.hpp:137-159) *)
Definition fg_resize (g : fgrid) (dim : coord) : option fgrid :=
  if CoordModel.coord_eqb (fg_dim g) dim then Some g
  else option_map (fun ext => mkFG dim ext (map junk (zrange 0 (prod ext)))) (sizes dim).

(** Constructor (soa_grid.hpp:87-94) *)
Definition fg_new (dim : coord) : option fgrid := fg_resize (mkFG [0; 0; 0] lost []) dim.

(** [callback] (soa_grid.hpp:161-170) with the functors which set and get one
    cell (186-198, 213-229) *)
Definition fg_get (g : fgrid) (c : coord) : option C := obind (sizes (fg_dim g)) (fun ext => vec_get (fg_mem g) (gen_index ext c)).
Definition fg_set (g : fgrid) (c : coord) (v : C) : option fgrid :=
  obind (sizes (fg_dim g)) (fun ext => option_map (mkFG (fg_dim g) (fg_ext g)) (vec_set (fg_mem g) (gen_index ext c) v)).

(** [swap] (soa_grid.hpp:119-132): [my_dim_x] and [my_extent_x] are swapped
    three times, the other dimensions aren't. *)
Definition with_x (from_x rest : coord) : coord :=
  match from_x, rest with [_; _; x], [z; y; _] => [z; y; x] | _, _ => rest end.
Definition fg_swap (a b : fgrid) : fgrid * fgrid :=
  (mkFG (with_x (fg_dim b) (fg_dim a)) (with_x (fg_ext b) (fg_ext a)) (fg_mem b),
   mkFG (with_x (fg_dim a) (fg_dim b)) (with_x (fg_ext a) (fg_ext b)) (fg_mem a)).

(** All coordinates below [dim] *)
Definition cells (dim : coord) : list coord :=
  match dim with
  | [dz; dy; dx] => flat_map (fun z => flat_map (fun y => map (fun x => [z; y; x]) (zrange 0 dx)) (zrange 0 dy)) (zrange 0 dz)
  | _ => []
  end.

(** [copy_in] (soa_grid.hpp:468-471, detail/copy_functor.hpp:37-46) *)
Definition fg_copy_in (src tgt : fgrid) : option fgrid :=
  obind (sizes (fg_dim src)) (fun ext =>
  option_map (mkFG (fg_dim tgt) (fg_ext tgt))
    (each (fun c m => obind (vec_get (fg_mem src) (gen_index ext c)) (vec_set m (gen_index ext c))) (cells (fg_dim src)) (fg_mem tgt))).

(** Copy constructor (soa_grid.hpp:96-105): the extents aren't initialised. *)
Definition fg_copy (g : fgrid) : option fgrid :=
  fg_copy_in g (mkFG (fg_dim g) lost (map junk (zrange 0 (Z.of_nat (length (fg_mem g)))))).

(** [operator=] (soa_grid.hpp:112-117) *)
Definition fg_assign (tgt src : fgrid) : option fgrid := obind (fg_resize tgt (fg_dim src)) (fg_copy_in src).

(** [load] of the first [num] cells (soa_grid.hpp:284-299,
    detail/load_functor.hpp:46-64) from the data of another grid whose members'
    arrays are [stride] long. Another stride than the real one leads to the
    wrong arrays. *)
Definition fg_load (g : fgrid) (num : Z) (src : list C) (stride : Z) : option fgrid :=
  obind (sizes (fg_dim g)) (fun ext =>
  if stride =? Z.of_nat (length src) then
    option_map (mkFG (fg_dim g) (fg_ext g))
      (each (fun x m => obind (vec_get src x) (vec_set m (gen_index ext [0; 0; 0] + x))) (zrange 0 num) (fg_mem g))
  else None).

(** ** soa_vector *)

(** soa_vector.hpp:189-190 *)
Record fvec := mkFV { fv_grid : fgrid; fv_count : Z }.
Definition x_of (c : coord) : Z := match c with [_; _; x] => x | _ => 0 end.

(** Constructor (soa_vector.hpp:48-51) *)
Definition fv_new (n : Z) : option fvec := option_map (fun g => mkFV g n) (fg_new [1; 1; n]).

(** [set], [get] (soa_vector.hpp:69-84), [clear] (136-139) *)
Definition fv_set (v : fvec) (i : Z) (e : C) : option fvec := option_map (fun g => mkFV g (fv_count v)) (fg_set (fv_grid v) [0; 0; i] e).
Definition fv_get (v : fvec) (i : Z) : option C := fg_get (fv_grid v) [0; 0; i].
Definition fv_clear (v : fvec) : fvec := mkFV (fv_grid v) 0.

(** [reserve] (soa_vector.hpp:113-125) *)
Definition fv_reserve (v : fvec) (n : Z) : option fvec :=
  obind (fg_new [1; 1; n]) (fun g0 =>
  obind (fg_resize g0 [1; 1; x_of (fg_ext g0)]) (fun g1 =>
  obind (fg_load g1 (fv_count v) (fg_mem (fv_grid v)) (x_of (fg_ext (fv_grid v)))) (fun g2 =>
  Some (mkFV (snd (fg_swap g2 (fv_grid v))) (fv_count v))))).

(** [resize] (soa_vector.hpp:102-109), [capacity] (129-132) *)
Definition fv_resize (v : fvec) (n : Z) : option fvec :=
  option_map (fun w => mkFV (fv_grid w) n) (if x_of (fg_dim (fv_grid v)) <? n then fv_reserve v n else Some v).

(** [push_back] (soa_vector.hpp:143-151). [grow] is [static_cast<std::size_t>(count * 1.2)]. *)
Definition fv_push (grow : Z -> Z) (v : fvec) (e : C) : option fvec :=
  obind (if fv_count v =? x_of (fg_ext (fv_grid v)) then fv_reserve v (grow (fv_count v)) else Some v) (fun w =>
  option_map (fun u => mkFV (fv_grid u) (fv_count u + 1)) (fv_set w (fv_count w) e)).

(** [pop_back] (soa_vector.hpp:155-160); [dflt] is [T()]. *)
Definition fv_pop (dflt : C) (v : fvec) : option fvec :=
  fv_set (mkFV (fv_grid v) (fv_count v - 1)) (fv_count v - 1) dflt.

(** The copy constructor, as generated by the compiler *)
Definition fv_copy (v : fvec) : option fvec := option_map (fun g => mkFV g (fv_count v)) (fg_copy (fv_grid v)).
End FlatGrid.

(** ** Sequences of operations *)
Inductive vop (C : Type) := VSet (i : Z) (e : C) | VPush (e : C) | VPop | VResize (n : Z) | VReserve (n : Z) | VClear.
Arguments VSet {C} i e. Arguments VPush {C} e. Arguments VPop {C}. Arguments VResize {C} n. Arguments VReserve {C} n. Arguments VClear {C}.

Definition fv_op {C} sizes (junk : Z -> C) lost grow dflt (o : vop C) (v : fvec) : option fvec :=
  match o with
  | VSet i e => fv_set sizes v i e
  | VPush e => fv_push sizes junk lost grow v e
  | VPop => fv_pop sizes dflt v
  | VResize n => fv_resize sizes junk lost v n
  | VReserve n => fv_reserve sizes junk lost v n
  | VClear => Some (fv_clear v)
  end.
