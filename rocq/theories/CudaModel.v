(** CUDASimulator: kernels, threads, and the transfers between host and
    device. Definitions only.

    Sources: parallelization/cudasimulator.h, storage/cudaupdatefunctor.h,
    storage/proxygrid.h, geometry/coord.h (conversions to dim3),
    geometry/topologies.h, all below /repo/src/libgeodecomp.

    The arrays on the device are lists, [None] is an access beyond their end.
    Integers are unbounded: the code mixes int and unsigned, but all sums are
    representable modulo 2^32 if the grid is. [ceil(1.0 * a / b)] is the exact
    ceiling, which doubles yield for all pairs of 32-bit integers. Updates read
    the old grid at the coordinates of the cell's stencil, and the former
    content of the cell to be updated. They are atomic: two threads which
    update the same cell don't occur in runs for which anything is claimed
    about the result. CUDA's limits on grids and blocks, and failing calls of
    the runtime, are not modelled. *)
From Verif Require Import Base RegionSpec RegionModel RegionIterModel RegionOpsModel CoordModel PatchModel GridModel StencilModel UpdateModel AdapterModel.

(** CUDA's dim3 *)
Record dim3 := mkDim3 { d3_x : Z; d3_y : Z; d3_z : Z }.

(** Conversion of Coord<DIM> (coord.h:133-140, 398-406, 676-685): the
    constructor of dim3 sets missing components to 1. *)
Definition to_dim3 (c : coord) : dim3 := mkDim3 (nth 0 (rev c) 1) (nth 1 (rev c) 1) (nth 2 (rev c) 1).

(** RawTopology (topologies.h:165-173): flags for three axes, even though the
    simulation may have less; WrapsAxis (topologies.h:23-48). Torus sets them
    all (topologies.h:274-278). *)
Record raw := mkRaw { wrap_x : bool; wrap_y : bool; wrap_z : bool }.
Definition raw_topology (d : nat) (r : raw) : topology := rev (firstn d [wrap_x r; wrap_y r; wrap_z r]).
Definition raw_torus : raw := mkRaw true true true.
Definition raw_cube : raw := mkRaw false false false.

Definition ceil_div (a b : Z) : Z := - ((- a) / b).

(** The parameters of a launch (cudasimulator.h:545-553). *)
Record params := mkParams {
  p_grid : dim3; p_block : dim3; p_offset : dim3; p_dim : dim3; p_wrap : dim3;
  p_offY : Z; p_offZ : Z; p_wave : Z }.

(** The grid is padded along the axes which don't wrap
    (cudasimulator.h:307-314). *)
Definition pad_offset (t : topology) : coord := map (fun w : bool => if w then 0 else -1) t.
Definition pad_dim (t : topology) (dim : coord) : coord := map (fun p => if fst p : bool then snd p else snd p + 2) (combine t dim).

(** The constructor (cudasimulator.h:373-427); [block] is blockSize, X first.
    [None] is a division by zero. *)
Definition make_params (r : raw) (dim : coord) (block : dim3) : option params :=
  let d := length dim in
  let t := raw_topology d r in
  let n := to_dim3 dim in
  let ceil a b := if b =? 0 then None else Some (ceil_div a b) in
  let o := rev (pad_offset t) in
  let padded := to_dim3 (pad_dim t dim) in
  let offY := d3_x padded in
  let offZ := d3_x padded * d3_y padded in
  obind (ceil (d3_x n) (d3_x block)) (fun gx =>
  obind (if Nat.ltb 2 d then ceil (d3_y n) (d3_y block) else Some 1) (fun gy =>
  obind (match d with
         | 1%nat => Some 1
         | 2%nat => ceil (d3_y n) (d3_y block)
         | _ => ceil (d3_z n) (d3_z block)
         end) (fun w =>
  Some (mkParams (mkDim3 gx gy 1) block
          (mkDim3 (nth 0 o 0) (nth 1 o 0) (nth 2 o 0)) n
          (mkDim3 (d3_x n * 1) (d3_y n * offY) (d3_z n * offZ))
          offY offZ (if w =? 0 then 1 else w))))).

(** ** Kernels *)

(** What HoodType refers to besides the index (cudasimulator.h:65-74). *)
Record adds := mkAdds { a_west : Z; a_east : Z; a_top : Z; a_bottom : Z; a_south : Z; a_north : Z }.

(** [HoodType::operator[]] (cudasimulator.h:50-63): where the old grid is read. *)
Definition hood_index (p : params) (a : adds) (index : Z) (f : fixed) : Z :=
  index +
  (if fc_x f <? 0 then a_west a + fc_x f else 0) +
  (if fc_x f >? 0 then a_east a + fc_x f else 0) +
  (if fc_y f <? 0 then a_top a + fc_y f * p_offY p else 0) +
  (if fc_y f >? 0 then a_bottom a + fc_y f * p_offY p else 0) +
  (if fc_z f <? 0 then a_south a + fc_z f * p_offZ p else 0) +
  (if fc_z f >? 0 then a_north a + fc_z f * p_offZ p else 0).

(** One update: of which cell, what is added to the neighbors' addresses, and
    whether it is done by CUDAUpdateFunctor, which selects update() or
    updateCUDA(), or by a direct call of update(). *)
Record act := mkAct { act_index : Z; act_adds : adds; act_functor : bool }.

(** CUDAUpdateFunctor in a loop (cudaupdatefunctor.h:19-25): the index
    advances by [off]. *)
Definition sweep (n : nat) (index off : Z) (a : adds) : list act :=
  map (fun k => mkAct (index + Z.of_nat k * off) a true) (seq 0 n).

(** The second half of kernel2D and kernel3D (cudasimulator.h:126-155,
    208-237): traversal of the last axis from [lo] to [hi], with the logical
    extent [n]; [low] and [high] are the corrections for the neighbors below the
    first and above the last cell. In kernel2D the last update is not done by the
    functor. *)
Definition traverse (wrap : bool) (lo hi n index off wrap_off : Z) (corr : Z -> Z -> adds) (functor : bool) : list act :=
  let first := wrap && (lo =? 0) in
  let head := if first then [mkAct index (corr wrap_off 0) true] else [] in
  let index' := if first then index + off else index in
  let lo' := if first then lo + 1 else lo in
  if wrap && (hi =? n) then
    let k := Z.to_nat (hi - 1 - lo') in
    head ++ sweep k index' off (corr 0 0) ++ [mkAct (index' + Z.of_nat k * off) (corr 0 (- wrap_off)) functor]
  else head ++ sweep (Z.to_nat (hi - lo')) index' off (corr 0 0).

(** [kernel2D] (cudasimulator.h:80-156), for the thread with the given logical
    coordinate *)
Definition kernel2D (r : raw) (p : params) (l : dim3) : list act :=
  let paddedX := d3_x l - d3_x (p_offset p) in
  let lo := (d3_y l + 0) * p_wave p - d3_y (p_offset p) in
  let hi := Z.min ((d3_y l + 1) * p_wave p - d3_y (p_offset p)) (d3_y (p_dim p) - d3_y (p_offset p)) in
  let west := if wrap_x r && (d3_x l =? 0) then d3_x (p_wrap p) else 0 in
  let east := if wrap_x r && (d3_x l =? d3_x (p_dim p) - 1) then - d3_x (p_wrap p) else 0 in
  let index := lo * p_offY p + paddedX in
  if d3_x l >=? d3_x (p_dim p) then []
  else traverse (wrap_y r) lo hi (d3_y (p_dim p)) index (p_offY p) (d3_y (p_wrap p))
         (fun top bottom => mkAdds west east top bottom 0 0) false.

(** [kernel3D] (cudasimulator.h:161-238) *)
Definition kernel3D (r : raw) (p : params) (l : dim3) : list act :=
  let paddedX := d3_x l - d3_x (p_offset p) in
  let paddedY := d3_y l - d3_y (p_offset p) in
  let lo := (d3_z l + 0) * p_wave p - d3_z (p_offset p) in
  let hi := Z.min ((d3_z l + 1) * p_wave p - d3_z (p_offset p)) (d3_z (p_dim p) - d3_z (p_offset p)) in
  let west := if wrap_x r && (d3_x l =? 0) then d3_x (p_wrap p) else 0 in
  let east := if wrap_x r && (d3_x l =? d3_x (p_dim p) - 1) then - d3_x (p_wrap p) else 0 in
  let top := if wrap_y r && (d3_y l =? 0) then d3_y (p_wrap p) else 0 in
  let bottom := if wrap_y r && (d3_y l =? d3_y (p_dim p) - 1) then - d3_y (p_wrap p) else 0 in
  let index := lo * p_offZ p + paddedY * p_offY p + paddedX in
  if (d3_x l >=? d3_x (p_dim p)) || (d3_y l >=? d3_y (p_dim p)) then []
  else traverse (wrap_z r) lo hi (d3_z (p_dim p)) index (p_offZ p) (d3_z (p_wrap p))
         (fun south north => mkAdds west east top bottom south north) true.

(** KernelWrapper (cudasimulator.h:249-296) *)
Definition kernel (d : nat) (r : raw) (p : params) (l : dim3) : list act :=
  if Nat.ltb 2 d then kernel3D r p l else kernel2D r p l.

(** The logical coordinates along one axis: blockIdx * blockDim + threadIdx
    (cudasimulator.h:88-89, 169-171). *)
Definition lanes (grid block : Z) : list Z := flat_map (fun b => map (fun th => b * block + th) (zrange 0 block)) (zrange 0 grid).

(** All threads of a launch. *)
Definition threads (p : params) : list dim3 :=
  flat_map (fun z => flat_map (fun y => map (fun x => mkDim3 x y z) (lanes (d3_x (p_grid p)) (d3_x (p_block p))))
                       (lanes (d3_y (p_grid p)) (d3_y (p_block p))))
    (lanes (d3_z (p_grid p)) (d3_z (p_block p))).

(** The updates of each thread. *)
Definition work (d : nat) (r : raw) (p : params) : list (list act) := map (kernel d r p) (threads p).

Section Run.
Context {C : Type} (st : stencil).
(* what update() and updateCUDA() make of the neighbors, in the order of the
   stencil's table, and of the cell's former content, by nano step *)
Context (upd_host upd_cuda : nat -> list C -> C -> C).
(* APITraits::HasSeparateCUDAUpdate, APITraits::HasSoA *)
Context (separate soa : bool).

Definition act_upd (a : act) : nat -> list C -> C -> C := if act_functor a && separate then upd_cuda else upd_host.

(** One update of a thread. *)
Definition do_act (p : params) (nano : nat) (old : list C) (a : act) (new : list C) : option (list C) :=
  obind (hood_values st (fun f => vec_get old (hood_index p (act_adds a) (act_index a) f))) (fun vs =>
  obind (vec_get new (act_index a)) (fun v =>
  vec_set new (act_index a) (act_upd a nano vs v))).

(** The updates of all threads in the order in which they take effect. *)
Fixpoint do_acts (p : params) (nano : nat) (old : list C) (l : list act) (new : list C) : option (list C) :=
  match l with [] => Some new | a :: l' => obind (do_act p nano old a new) (do_acts p nano old l') end.

(** ** The simulator *)

(** Members (cudasimulator.h:535-551): the host's grid, the arrays on the
    device, whether the host's grid is current, and the step. *)
Record sim := mkSim { s_host : dgrid C; s_old : list C; s_new : list C; s_current : bool; s_step : nat }.

(** [nanoStep], [nanoStepImpl] (cudasimulator.h:560-594), followed by the swap
    of the grids (cudasimulator.h:468-470); [order] is the order in which the
    updates of this launch take effect. *)
Definition nano_step (p : params) (nano : nat) (order : list act) (s : sim) : option sim :=
  obind (if soa then Some (s_new s) else do_acts p nano (s_old s) order (s_new s)) (fun new =>
  Some (mkSim (s_host s) new (s_old s) false (s_step s))).

(** [getGrid] (cudasimulator.h:490-497) *)
Definition get_grid (s : sim) : sim :=
  if s_current s then s
  else mkSim (dg_with (s_host s) (mkVGrid (g_dim (d_grid (s_host s))) (s_old s) (g_edge (d_grid (s_host s)))))
         (s_old s) (s_new s) true (s_step s).

(** Steerers: the period, and what they make of the grid; [true] asks for the
    end of the simulation. Writers are known by their periods. *)
Record steerer := mkSteerer { t_period : nat; t_act : nat -> dgrid C -> dgrid C * bool }.

(** Calls of writers: which one, at which step, the event, and the grid that
    they get to see. *)
Record call := mkCall { c_writer : nat; c_step : nat; c_event : ioevent; c_grid : dgrid C }.

Context (nanos : nat) (start last : nat) (steerers : list steerer) (writers : list nat).

(** The steerers' turn (cudasimulator.h:453-466). *)
Definition steer (s : sim) : sim * bool :=
  fold_left (fun a t => if Nat.eqb (Nat.modulo (s_step (fst a)) (t_period t)) 0
                        then let '(g, e) := t_act t (s_step (fst a)) (s_host (fst a)) in
                             (mkSim g (s_old (fst a)) (s_new (fst a)) (s_current (fst a)) (s_step (fst a)), snd a || e)
                        else a) steerers (s, false).

(** The loop over the nano steps (cudasimulator.h:468-471); [order k] is the
    order of updates in the [k]-th launch. *)
Fixpoint nano_loop (p : params) (order : nat -> list act) (k n i : nat) (s : sim) : option sim :=
  match n with
  | O => Some s
  | S n' => obind (nano_step p i (order k) s) (nano_loop p order (S k) n' (S i))
  end.

(** The writers' turn (cudasimulator.h:475-487). *)
Definition write_step (s : sim) : sim * list call :=
  let e := if Nat.eqb (s_step s) last then IoAllDone else IoStep in
  fold_left (fun a w => if Nat.eqb (Nat.modulo (s_step (fst a)) (snd w)) 0 || Nat.eqb (s_step (fst a)) last
                        then let s' := get_grid (fst a) in (s', snd a ++ [mkCall (fst w) (s_step s') e (s_host s')])
                        else a) (combine (seq 0 (length writers)) writers) (s, []).

(** [step] (cudasimulator.h:447-488) *)
Definition sim_step (p : params) (order : nat -> list act) (k : nat) (s : sim) : option (sim * bool * list call) :=
  let '(s1, ended) := steer s in
  obind (nano_loop p order k nanos 0 s1) (fun s2 =>
  let '(s3, calls) := write_step (mkSim (s_host s2) (s_old s2) (s_new s2) (s_current s2) (S (s_step s2))) in
  Some (s3, ended, calls)).

(** The loop of [run] (cudasimulator.h:526-532) *)
Fixpoint sim_loop (p : params) (order : nat -> list act) (fuel k : nat) (ended : bool) (s : sim) : option (sim * list call) :=
  if Nat.ltb (s_step s) last then
    if ended then Some (s, [])
    else match fuel with
         | O => None
         | S f => obind (sim_step p order k s) (fun '(s', e, cs) =>
                  option_map (fun x => (fst x, cs ++ snd x)) (sim_loop p order f (k + nanos) (ended || e) s'))
         end
  else Some (s, []).

(** Padding with the edge cell (cudasimulator.h:507-513): the coordinates of
    the region, i.e. of the grid's box without the one of the initializer,
    which is taken to begin at the origin. *)
Definition padding (r : raw) (dim : coord) : option (list coord) :=
  let t := raw_topology (length dim) r in
  option_map (filter (fun c => negb (box_in_bounds (mkBox (map (fun _ => 0) dim) dim) c)))
    (box_coords (Z.to_nat (prod (pad_dim t dim))) (mkBox (pad_offset t) (pad_dim t dim))).

Definition pad_grid (t : topology) (cs : list coord) (g : dgrid C) : option (dgrid C) :=
  fold_left (fun a c => obind a (fun g => dg_set t false g c (g_edge (d_grid g)))) cs (Some g).

(** [run] (cudasimulator.h:502-533), from the simulator's state as left by
    initializer->grid(&ioGrid). *)
Definition sim_run (p : params) (r : raw) (dim : coord) (order : nat -> list act) (fuel : nat) (s : sim) : option (sim * list call) :=
  obind (padding r dim) (fun cs =>
  obind (pad_grid (raw_topology (length dim) r) cs (s_host s)) (fun g =>
  let s1 := mkSim g (g_cells (d_grid g)) (g_cells (d_grid g)) (s_current s) start in
  let calls := map (fun w => mkCall w (s_step s1) IoInitialized g) (seq 0 (length writers)) in
  option_map (fun x => (fst x, calls ++ snd x)) (sim_loop p order fuel 0 false s1))).
End Run.
