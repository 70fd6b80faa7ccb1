(** CUDASoAGrid: regular grids with a Struct of Arrays layout on GPUs.
    Definitions only.

    Sources: storage/cudasoagrid.h, misc/cudautil.h, both below
    /repo/src/libgeodecomp, and soa_grid.hpp and the functors for CUDA in
    detail/ from /repo/lib/libflatarray/include/libflatarray.

    Kernels are run by threads which don't communicate: what a thread reads is
    never written by the same kernel. Hence a thread is modelled by the list of
    the values which it writes, and a launch by the order in which the threads
    write, which may be any. A thread writes all members of a cell at once; this
    doesn't matter, as no other thread writes the same cell. If there are more
    blocks than CUDA allows, then the launch fails. The code doesn't check for
    this error. [None] is an exception or undefined behaviour, as in SoAModel,
    from which operations are taken over if CUDASoAGrid's code is the same. *)
From Verif Require Import Base RegionSpec RegionModel RegionIterModel RegionOpsModel CoordModel PatchModel GridModel UpdateModel SoAModel.

(** ** Launches *)

(** [divideAndRoundUp] (cudautil.h:83-91), [divide_and_round_up]
    (generate_cuda_launch_config.hpp:44-52) *)
Definition round_up (i d : Z) : Z := i / d + (if i mod d =? 0 then 0 else 1).

(** The loop which looks for the width of the blocks (cudautil.h:68-73). Four
    iterations suffice. *)
Fixpoint widen (n : nat) (w limit x : Z) : Z :=
  match n with O => w | S n' => if w <? limit then if x <=? w then w else widen n' (w * 2) limit x else w end.

(** [generateLaunchConfig] (cudautil.h:57-80): the size of a block *)
Definition cu_block (dim : coord) : coord :=
  match dim with
  | [_; y; x] => if 4 <=? y then [1; 4; widen 4 32 128 x] else [1; 1; widen 4 32 512 x]
  | _ => []
  end.

(** The one of LibFlatArray (generate_cuda_launch_config.hpp:30-41) *)
Definition lfa_block (dim : coord) : coord :=
  match dim with [_; y; _] => if 4 <=? y then [1; 4; 128] else [1; 1; 512] | _ => [] end.

(** The number of blocks (cudautil.h:77-79,
    generate_cuda_launch_config.hpp:38-40) *)
Definition blocks (dim block : coord) : coord := map (fun p => round_up (fst p) (snd p)) (combine dim block).

(** CUDA's limits: at most 1024 threads per block, at least one block, at most
    65535 along Y and Z. The limit for X (2^31 - 1) can't be exceeded. *)
Definition launchable (grid block : coord) : bool :=
  match grid, block with
  | [gz; gy; gx], [bz; by_; bx] =>
      (0 <? gx) && (0 <? gy) && (gy <=? 65535) && (0 <? gz) && (gz <=? 65535) && (bx * by_ * bz <=? 1024)
  | _, _ => false
  end.

(** All indices below given ones *)
Definition cells3 (n : coord) : list coord :=
  match n with
  | [nz; ny; nx] => flat_map (fun z => flat_map (fun y => map (fun x => [z; y; x]) (zrange 0 nx)) (zrange 0 ny)) (zrange 0 nz)
  | _ => []
  end.

(** The threads of a launch: [blockIdx] and [threadIdx] *)
Definition threads (grid block : coord) : list (coord * coord) := list_prod (cells3 grid) (cells3 block).

(** [blockDim * blockIdx + threadIdx] *)
Definition position (block : coord) (th : coord * coord) : coord :=
  zadd (map (fun p => fst p * snd p) (combine block (fst th))) (snd th).

(** What a thread writes: indices and values *)
Fixpoint put_all {X} (ws : list (Z * X)) (m : list X) : option (list X) :=
  match ws with [] => Some m | (i, v) :: ws' => obind (vec_set m i v) (put_all ws') end.

(** A kernel yields for each position what is to be written. *)
Definition kernel (X : Type) := coord -> option (list (Z * X)).

(** [kernel<<<grid, block>>>]: the threads write in the given order. *)
Definition launch {X} (order : coord -> coord -> list (coord * coord)) (k : kernel X) (grid block : coord) (m : list X) : option (list X) :=
  if launchable grid block then each (fun th m => obind (k (position block th)) (fun ws => put_all ws m)) (order grid block) m
  else Some m.

(** ** Kernels *)

(** [set_kernel] (cudasoagrid.h:16-57) *)
Definition edge_kernel {C} (init : bool) (ext act rad : coord) (edge inner : C) : kernel C := fun p =>
  match act, rad, p with
  | [gz; gy; gx], [rz; ry; rx], [z; y; x] =>
      if (gx <=? x) || (gy <=? y) || (gz <=? z) then Some []
      else if (x <? rx) || (gx - rx <=? x) || (y <? ry) || (gy - ry <=? y) || (z <? rz) || (gz - rz <=? z) then
        Some [(gen_index ext p, edge)]
      else if init then Some [(gen_index ext p, inner)] else Some []
  | _, _, _ => None
  end.

(** LibFlatArray's [set_kernel] (set_instance_functor.hpp:78-93); [src] is the
    staging buffer. *)
Definition set_kernel {C} (stride : Z) (ext : coord) (src : list C) (count : Z) (o : coord) : kernel C := fun p =>
  match o, p with
  | [z; y; x], [_; _; i] =>
      let offset := i * stride in
      if count <=? offset then Some []
      else option_map (fun v => [(gen_index ext [z; y; x + offset], v)]) (vec_get src offset)
  | _, _ => None
  end.

(** [get_kernel] (get_instance_functor.hpp:79-94) *)
Definition get_kernel {C} (ext : coord) (m : list C) (count : Z) (o : coord) : kernel C := fun p =>
  match o, p with
  | [z; y; x], [_; _; offset] =>
      if count <=? offset then Some []
      else option_map (fun v => [(offset, v)]) (vec_get m (gen_index ext [z; y; x + offset]))
  | _, _ => None
  end.

(** [save_kernel] (save_functor.hpp:75-90): [K] members, each of which is found
    at a distance of [stride] in the buffer. *)
Definition save_kernel {C M} (K : nat) (part : nat -> C -> M) (ext : coord) (m : list C) (count stride : Z) (o : coord) (offset : Z) : kernel M := fun p =>
  match p with
  | [_; _; i] =>
      if count <=? i then Some []
      else option_map (fun v => map (fun j => (Z.of_nat j * stride + (offset + i), part j v)) (seq 0 K)) (vec_get m (gen_index ext o + i))
  | _ => None
  end.

(** [load_kernel] (load_functor.hpp:80-95) *)
Definition load_kernel {C M} (K : nat) (assemble : list M -> C) (ext : coord) (buf : list M) (count stride : Z) (o : coord) (offset : Z) : kernel C := fun p =>
  match p with
  | [_; _; i] =>
      if count <=? i then Some []
      else option_map (fun v => [(gen_index ext o + i, v)]) (unpack K assemble buf stride (offset + i))
  | _ => None
  end.

(** ** CUDASoAGrid *)
Section Cuda.
Context {C : Type} (order : coord -> coord -> list (coord * coord)).
Context (t : topology) (correct : bool) (R : Z) (sizes : coord -> option coord) (junk : Z -> C).

(** [SetContent] (cudasoagrid.h:62-105) *)
Definition cu_content (init : bool) (ext act rad : coord) (edge inner : C) (m : list C) : option (list C) :=
  launch order (edge_kernel init ext act rad edge inner) (blocks act (cu_block act)) (cu_block act) m.

(** A kernel for [count] consecutive cells (set_instance_functor.hpp:128-142,
    get_instance_functor.hpp:129-143, save_functor.hpp:110-132,
    load_functor.hpp:115-137) *)
Definition launch_line {X} (k : kernel X) (count : Z) (m : list X) : option (list X) :=
  launch order k (blocks [1; 1; count] (lfa_block [1; 1; count])) (lfa_block [1; 1; count]) m.

(** [soa_grid::set], [soa_grid::get] (soa_grid.hpp:186-244) with a staging
    buffer (staging_buffer.hpp:64-100), to which [count] cells are copied. *)
Definition lfa_set (ext o : coord) (vs : list C) (count : Z) (m : list C) : option (list C) :=
  obind (vec_read vs 0 (Z.to_nat count)) (fun src => launch_line (set_kernel 1 ext src count o) count m).

Definition lfa_get (ext o : coord) (count : Z) (m : list C) : option (list C) :=
  launch_line (get_kernel ext m count o) count (map junk (zrange 0 count)).

(** [soa_grid::broadcast] (soa_grid.hpp:249-260) *)
Definition lfa_broadcast (ext o : coord) (v : C) (count : Z) (m : list C) : option (list C) :=
  launch_line (set_kernel 0 ext [v] count o) count m.

(** [setEdge] (cudasoagrid.h:279-290) *)
Definition cu_set_edge (g : sgrid C) (v : C) : option (sgrid C) :=
  obind (sizes (sg_act g)) (fun ext =>
  option_map (fun m => mkSGrid (sg_box g) (sg_topo g) v (sg_rad g) (sg_act g) m)
    (cu_content false ext (sg_act g) (sg_rad g) v v (sg_mem g))).

(** [resize] (cudasoagrid.h:202-230); without edges it is the same as
    SoAGrid's. *)
Definition cu_resize (g : sgrid C) (b : box) : option (sgrid C) :=
  obind (sg_resize0 sizes junk g b) (fun g' => cu_set_edge g' (sg_edge g')).

(** The constructors (cudasoagrid.h:139-181) *)
Definition cu_make (b : box) (dflt edge : C) (topo : coord) : option (sgrid C) :=
  obind (sg_resize0 sizes junk (mkSGrid b topo edge (edge_radii t R) [0; 0; 0] []) b) (fun g =>
  obind (sizes (sg_act g)) (fun ext =>
  option_map (sg_with g) (cu_content true ext (sg_act g) (sg_rad g) edge dflt (sg_mem g)))).

(** The coordinate used by [delegateGet], [delegateSet] (cudasoagrid.h:396-505) *)
Definition cu_place (g : sgrid C) (rel : coord) : coord := zadd (sg_rad g) (pad 0 rel).

(** [get] (cudasoagrid.h:256-267), [set] (cudasoagrid.h:232-244) *)
Definition cu_get (g : sgrid C) (c : coord) : option C :=
  let rel := sg_coord t correct g c in
  if out_of_bounds t rel (b_dim (sg_box g)) then Some (sg_edge g)
  else obind (sizes (sg_act g)) (fun ext => obind (lfa_get ext (cu_place g rel) 1 (sg_mem g)) (fun l => vec_get l 0)).

Definition cu_set (g : sgrid C) (c : coord) (v : C) : option (sgrid C) :=
  let rel := sg_coord t correct g c in
  if out_of_bounds t rel (b_dim (sg_box g)) then cu_set_edge g v
  else obind (sizes (sg_act g)) (fun ext => option_map (sg_with g) (lfa_set ext (cu_place g rel) [v] 1 (sg_mem g))).

(** The same for Streaks (cudasoagrid.h:269-277, 246-254) *)
Definition cu_get_streak (g : sgrid C) (s : streak) : option (list C) :=
  if s_e s <? s_x s then None
  else obind (sizes (sg_act g)) (fun ext =>
    lfa_get ext (cu_place g (sg_coord t correct g (s_origin s))) (s_e s - s_x s) (sg_mem g)).

Definition cu_set_streak (g : sgrid C) (s : streak) (vs : list C) : option (sgrid C) :=
  if s_e s <? s_x s then None
  else obind (sizes (sg_act g)) (fun ext =>
    option_map (sg_with g) (lfa_set ext (cu_place g (sg_coord t correct g (s_origin s))) vs (s_e s - s_x s) (sg_mem g))).

Definition cu_op (g : sgrid C) (o : gop C) : option (sgrid C) :=
  match o with
  | GSet c v => cu_set g c v
  | GSetStreak s vs => cu_set_streak g s vs
  | GSetEdge v => cu_set_edge g v
  end.

Fixpoint cu_ops (g : sgrid C) (l : list (gop C)) : option (sgrid C) :=
  match l with [] => Some g | o :: l' => obind (cu_op g o) (fun g' => cu_ops g' l') end.

(** ** Regions *)
Context {M : Type} (K : nat) (part : nat -> C -> M) (assemble : list M -> C) (mjunk : Z -> M).

(** [save_functor], [load_functor]: one launch per Streak. *)
Fixpoint lfa_save (ext : coord) (m : list C) (stride : Z) (ss : list (coord * Z)) (off : Z) (buf : list M) : option (list M) :=
  match ss with
  | [] => Some buf
  | (o, n) :: ss' =>
      obind (launch_line (save_kernel K part ext m n stride o off) n buf) (lfa_save ext m stride ss' (off + n))
  end.

Fixpoint lfa_load (ext : coord) (buf : list M) (stride : Z) (ss : list (coord * Z)) (off : Z) (m : list C) : option (list C) :=
  match ss with
  | [] => Some m
  | (o, n) :: ss' =>
      obind (launch_line (load_kernel K assemble ext buf n stride o off) n m) (lfa_load ext buf stride ss' (off + n))
  end.

(** [saveRegion] (cudasoagrid.h:302-322); [room] is the size of the vector
    which is handed over. [loadRegion] (cudasoagrid.h:324-343). The buffer's
    beginning is copied to the GPU (soa_grid.hpp:284-299). *)
Definition cu_save (g : sgrid C) (r : indices) (off : coord) (room : Z) : option (list M) :=
  obind (reg_streaks r) (fun ss =>
  let os := map (offset_streak (sg_offset g off)) ss in
  let count := sum_lengths os in
  if room <? Z.of_nat K * count then None
  else obind (sizes (sg_act g)) (fun ext => lfa_save ext (sg_mem g) count os 0 (map mjunk (zrange 0 (Z.of_nat K * count))))).

Definition cu_load (g : sgrid C) (r : indices) (off : coord) (buf : list M) : option (sgrid C) :=
  obind (reg_streaks r) (fun ss =>
  let os := map (offset_streak (sg_offset g off)) ss in
  let count := sum_lengths os in
  if Z.of_nat (length buf) <? Z.of_nat K * count then None
  else obind (sizes (sg_act g)) (fun ext =>
    obind (vec_read buf 0 (Z.to_nat (Z.of_nat K * count))) (fun raw =>
    option_map (sg_with g) (lfa_load ext raw count os 0 (sg_mem g))))).
End Cuda.
