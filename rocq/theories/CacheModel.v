(** CacheBlockingSimulator: updates of several time steps in one sweep.
    Definitions only.

    Source: parallelization/cacheblockingsimulator.h, below
    /repo/src/libgeodecomp.

    Three dimensions, coordinates are [z; y; x]. One thread, hence one buffer;
    the wavefronts are visited row by row (the loop of [hop], without the
    pragma). Cells are updated by the path for models without fixed coordinates
    ([van_body]). [None] is undefined behaviour (accesses beyond the end of a
    vector) or an endless loop. The frames are computed anew on each use, rather
    than stored in a grid by the constructor (generateFrames, lines 124-146).
    Calls of [update] don't depend on the former content of the target cell. *)
From Verif Require Import Base RegionSpec RegionModel RegionIterModel RegionOpsModel CoordModel AdapterModel PatchModel GridModel StencilModel UpdateModel.

Section Frames.
Variables (dim : coord) (wdim : Z * Z) (len : nat).   (* gridDim, wavefrontDim (y, x), pipelineLength *)

Definition dim_z : Z := axis 2 dim.
Definition dim_y : Z := axis 1 dim.
Definition dim_x : Z := axis 0 dim.

(** [framesDim[i]] (cacheblockingsimulator.h:128-134) *)
Definition frames_extent (n w : Z) : Z := Z.quot n w + (if Z.rem n w =? 0 then 0 else 1).

(** [framesDim] (y, x) *)
Definition frames_dim : Z * Z := (frames_extent dim_y (fst wdim), frames_extent dim_x (snd wdim)).

Definition cube3 : topology := [false; false; false].

(** Box loops end after this many rounds. *)
Definition box_fuel (b : box) : nat := Z.to_nat (prod (b_dim b)).

(** The loop over the stages (cacheblockingsimulator.h:162-165), which prepends
    [n] stages to the given ones. *)
Fixpoint earlier_stages (n : nat) (regions : list indices) : option (list indices) :=
  match n with
  | O => Some regions
  | S n' => obind (reg_expand_topology (hd (reg_empty 3) regions) 1 dim cube3) (fun r => earlier_stages n' (r :: regions))
  end.

(** [regions] (cacheblockingsimulator.h:148-165) of the wavefront with the
    given origin (y, x); there is no last element if the pipeline is empty. *)
Definition stage_regions (oy ox : Z) : option (list indices) :=
  let b := mkBox [0; oy; ox] [dim_z; fst wdim; snd wdim] in
  match len with
  | O => None
  | S n =>
      obind (reg_insert_box (box_fuel b) (reg_empty 3) b) (fun r =>
      obind (reg_expand_topology r 0 dim cube3) (fun r0 => earlier_stages n [r0]))
  end.

(** [mask] (cacheblockingsimulator.h:171-178); the result of
    [Topology::normalize] (line 173) is discarded. *)
Definition index_mask (index : Z) : option indices :=
  let b := mkBox [index; 0; 0] [1; dim_y; dim_x] in reg_insert_box (box_fuel b) (reg_empty 3) b.

(** [generateWavefrontFrames] (cacheblockingsimulator.h:148-185): for each
    index, one Region per stage. *)
Definition wavefront_frames (oy ox : Z) : option (list (list indices)) :=
  obind (stage_regions oy ox) (fun regions =>
  omap (fun index => obind (index_mask index) (fun mask => omap (fun r => reg_isect r mask) regions)) (zrange 0 (dim_z + 1))).
End Frames.

(** ** Updates *)

(** Members: curGrid, newGrid, the buffer, nanoStep, stepNum. *)
Record cache (C : Type) := mkCache { ca_cur : vgrid C; ca_new : vgrid C; ca_buf : dgrid C; ca_nano : nat; ca_step : nat }.
Arguments mkCache {C}. Arguments ca_cur {C}. Arguments ca_new {C}. Arguments ca_buf {C}. Arguments ca_nano {C}. Arguments ca_step {C}.

Section Cache.
Context {C : Type} (t : topology) (st : stencil) (nanos : nat) (upd : nat -> list C -> C).
Variables (dim : coord) (wdim : Z * Z) (len : nat).

Local Notation P := (Z.of_nat len).

(** [BufferTopology] (cacheblockingsimulator.h:27): wraps along Z. *)
Definition buf_topology : topology := [true; wraps_axis t 1; wraps_axis t 0].

(** The buffer (cacheblockingsimulator.h:51-60) *)
Definition make_buffer (edge : C) : dgrid C :=
  dg_make (mkBox [0; 0; 0] [P * 4 - 4; fst wdim + 2 * P - 2; snd wdim + 2 * P - 2]) edge edge [0; 0; 0].

(** [normalizeIndex] (cacheblockingsimulator.h:330-334); modulo zero is
    undefined. *)
Definition normalize_index (i : Z) : option Z :=
  let size := P * 4 - 4 in if size =? 0 then None else Some (Z.rem (i + size) size).

(** [frameUpdate] (cacheblockingsimulator.h:292-326): the target grid
    afterwards. Flushing comes down to nothing (the fill is a comment). *)
Definition frame_update (flush : bool) (frame : indices) (source target : Z) (old : vgrid C) (loc locN : coord -> ptr)
    (nano : nat) (g : vgrid C) : option (vgrid C) :=
  if flush then Some g
  else obind (reg_streaks frame) (fun ss =>
         run_bodies (van_body st (fun vs _ => upd nano vs) old loc locN [source; 0; 0] [target; 0; 0]) ss g).

(** One round of the loop in [pipelinedUpdate]
    (cacheblockingsimulator.h:262-289); [index] is both globalIndex and
    localIndex. *)
Definition stage_update (frames : list (list indices)) (index : Z) (first i : nat) (s : cache C) : option (cache C) :=
  let cur := index - 2 * Z.of_nat i in
  let isFirst := Nat.eqb i 0 in
  let isLast := Nat.eqb i (len - 1) in
  let flush := Nat.eqb i first && (dim_z dim <=? cur) in
  obind (if isFirst then Some cur else normalize_index (index + 2 - 4 * Z.of_nat i)) (fun source =>
  obind (if isLast then Some cur else normalize_index (index + 0 - 4 * Z.of_nat i)) (fun target =>
  obind (vec_get frames cur) (fun fs => obind (nth_error fs i) (fun frame =>
  let nano := Nat.modulo (ca_nano s + i) nanos in
  let old := if isFirst then ca_cur s else d_grid (ca_buf s) in
  let loc := if isFirst then grid_loc t (ca_cur s) else dg_loc buf_topology false (ca_buf s) in
  if isLast
  then option_map (fun g => mkCache (ca_cur s) g (ca_buf s) (ca_nano s) (ca_step s))
         (frame_update flush frame source target old loc (grid_loc t (ca_new s)) nano (ca_new s))
  else option_map (fun g => mkCache (ca_cur s) (ca_new s) (dg_with (ca_buf s) g) (ca_nano s) (ca_step s))
         (frame_update flush frame source target old loc (dg_loc buf_topology false (ca_buf s)) nano (d_grid (ca_buf s))))))).

(** Loops whose body may fail *)
Fixpoint ofold {S A} (f : A -> S -> option S) (l : list A) (s : S) : option S :=
  match l with [] => Some s | a :: l' => obind (f a s) (ofold f l') end.

(** [pipelinedUpdate] (cacheblockingsimulator.h:252-290) *)
Definition pipelined_update (frames : list (list indices)) (index : Z) (first last : nat) (s : cache C) : option (cache C) :=
  ofold (stage_update frames index first) (seq first (last - first)) s.

(** [fixBufferOrigin] (cacheblockingsimulator.h:241-250) *)
Definition fix_origin (wy wx : Z) (d : dgrid C) : dgrid C :=
  mkDGrid (d_grid d) [0; Z.max 0 (wy * fst wdim - P + 1); Z.max 0 (wx * snd wdim - P + 1)] (d_topo d).

(** Stages which are due at an index (cacheblockingsimulator.h:219-238): while
    the pipeline is filled, in normal operation, and while it drains. *)
Definition stages_due (maxIndex index : Z) : nat * nat :=
  if index <? 2 * P - 2 then (0%nat, Z.to_nat (index / 2 + 1))
  else if index <? maxIndex then (0%nat, len)
  else (Z.to_nat ((index - maxIndex + 1) / 2), len).

(** [updateWavefront] (cacheblockingsimulator.h:212-239). The three loops
    together visit all indices from 0 on, up to the maximum of their ends. *)
Definition update_wavefront (w : Z * Z) (s : cache C) : option (cache C) :=
  let buf := fix_origin (fst w) (snd w) (dg_set_edge (ca_buf s) (g_edge (ca_cur s))) in
  let maxIndex := dim_z dim in
  obind (wavefront_frames dim wdim len (fst w * fst wdim) (snd w * snd wdim)) (fun frames =>
  ofold (fun index s => let '(first, last) := stages_due maxIndex index in pipelined_update frames index first last s)
    (zrange 0 (maxIndex + 2 * P - 2)) (mkCache (ca_cur s) (ca_new s) buf (ca_nano s) (ca_step s))).

(** Coordinates (y, x) of the wavefronts, in the order of [hop]'s loops. *)
Definition wavefronts : list (Z * Z) :=
  let '(ny, nx) := frames_dim dim wdim in
  flat_map (fun y => map (fun x => (y, x)) (zrange 0 nx)) (zrange 0 ny).

(** [hop] (cacheblockingsimulator.h:187-210) *)
Definition cache_hop (s : cache C) : option (cache C) :=
  option_map (fun s' =>
    let n := (ca_nano s' + len)%nat in
    mkCache (ca_new s') (ca_cur s') (ca_buf s') (Nat.modulo n nanos) (ca_step s' + Nat.div n nanos))
    (ofold update_wavefront wavefronts s).

(** The loop of [run] (cacheblockingsimulator.h:91-94) *)
Fixpoint cache_loop (fuel : nat) (last : nat) (s : cache C) : option (cache C) :=
  if Nat.ltb (ca_step s) last then match fuel with O => None | S f => obind (cache_hop s) (cache_loop f last) end
  else Some s.

(** Constructor and [run] (cacheblockingsimulator.h:36-102): [g] is what the
    initializer makes of a grid. Final state, and the calls of each writer;
    steerers aren't called. *)
Definition cache_run (fuel start last : nat) (g : vgrid C) : option (cache C * list iocall) :=
  option_map (fun s => (s, [(start, IoInitialized); (ca_step s, IoAllDone)]))
    (cache_loop fuel last (mkCache g g (make_buffer (g_edge g)) 0 start)).
End Cache.
