(** Specification vocabulary for the CUDASimulator. *)
From Verif Require Import Base RegionModel CoordModel CoordSpec GridModel GridSpec StencilModel UpdateModel UpdateSpec AdapterModel CudaModel.

(** Orders in which the actions of concurrent threads may take effect. *)
Inductive interleaves {A} : list (list A) -> list A -> Prop :=
| il_done ts : Forall (fun l => l = []) ts -> interleaves ts []
| il_next ts1 ts2 a l r : interleaves (ts1 ++ l :: ts2) r -> interleaves (ts1 ++ (a :: l) :: ts2) (a :: r).

(** What is found at a place of a grid. *)
Definition value {C} (f : coord -> C) (edge : C) (p : place) : C := match p with Some c => f c | None => edge end.

(** One synchronous step: what update() makes of the cells of the old
    generation around a coordinate, and of the cell which is overwritten. *)
Definition sync {C} (t : topology) (dim : coord) (st : stencil) (update : list C -> C -> C) (edge : C) (old new : coord -> C) : coord -> C :=
  fun c => update (map (fun c' => value old edge (denotes t dim c')) (neighbors st c)) (new c).

(** Generations: the current one and the one before, which is overwritten by
    the next one. *)
Fixpoint generations {C} (t : topology) (dim : coord) (st : stencil) (update : nat -> list C -> C -> C) (nanos : nat) (edge : C) (init : coord -> C)
    (k : nat) : (coord -> C) * (coord -> C) :=
  match k with
  | O => (init, init)
  | S k' => let '(cur, prev) := generations t dim st update nanos edge init k' in
            (sync t dim st (update (Nat.modulo k' nanos)) edge cur prev, cur)
  end.

Definition generation {C} t dim st update nanos edge init k : coord -> C := fst (@generations C t dim st update nanos edge init k).

(** [b] threads, each of which takes care of as many cells as needed to cover
    [n] cells: all of them get some. *)
Definition all_busy (n b : Z) : Prop := (b - 1) * ((n + b - 1) / b) < n.

(** The grids and block sizes (X, Y, Z) which the kernels can handle. *)
Definition good_launch (r : raw) (dim : coord) (block : dim3) : Prop :=
  Forall (fun n => 0 < n) dim /\ 1 <= d3_x block /\ 1 <= d3_y block /\ 1 <= d3_z block /\
  match dim with
  | [_] => d3_z block = 1 /\ wrap_y r = false
  | [ny; _] => d3_z block = 1 /\ (wrap_y r = true -> 2 <= ny /\ all_busy ny (d3_y block))
  | [nz; _; _] => wrap_z r = true -> 2 <= nz /\ all_busy nz (d3_z block)
  | _ => False
  end.

(** Cells with a separate updateCUDA(): the kernel for up to two dimensions
    bypasses it if the Y axis wraps. *)
Definition good_update (r : raw) (dim : coord) (separate : bool) : Prop :=
  separate = true -> length dim = 3%nat \/ wrap_y r = false.

(** An array on the device, with the padding. *)
Definition device_holds {C} (r : raw) (dim : coord) (f : coord -> C) (edge : C) (l : list C) : Prop :=
  let t := raw_topology (length dim) r in
  let whole := pad_dim t dim in
  length l = Z.to_nat (prod whole) /\
  forall q, in_grid whole q ->
    let c := zadd q (pad_offset t) in
    (in_grid dim c -> vec_get l (to_index q whole) = Some (f c)) /\
    (~ in_grid dim c -> vec_get l (to_index q whole) = Some edge).

(** The grid which writers and users get to see. *)
Definition shows {C} (t : topology) (dim : coord) (g : dgrid C) (f : coord -> C) (edge : C) : Prop :=
  g_edge (d_grid g) = edge /\ forall c, in_grid dim c -> dg_get t false g c = Some (f c).

(** The host's grid as set up by the constructor, filled in any way. *)
Definition host_grid {C} (r : raw) (dim : coord) (g : dgrid C) : Prop :=
  let t := raw_topology (length dim) r in
  d_org g = pad_offset t /\ g_dim (d_grid g) = pad_dim t dim /\ length (g_cells (d_grid g)) = Z.to_nat (prod (pad_dim t dim)).

(** Steerers which modify nothing but cells, and don't end the simulation. *)
Definition unobtrusive {C} (r : raw) (dim : coord) (s : steerer (C := C)) : Prop :=
  forall n g, host_grid r dim g ->
    let '(g', e) := t_act s n g in host_grid r dim g' /\ g_edge (d_grid g') = g_edge (d_grid g) /\ e = false.

(** When writers are to be called. *)
Definition expected_calls (start last : nat) (writers : list nat) : list (nat * nat * ioevent) :=
  map (fun w => (w, start, IoInitialized)) (seq 0 (length writers)) ++
  flat_map (fun s => map (fun w => (fst w, s, if Nat.eqb s last then IoAllDone else IoStep))
                       (filter (fun w => Nat.eqb (Nat.modulo s (snd w)) 0 || Nat.eqb s last) (combine (seq 0 (length writers)) writers)))
    (seq (S start) (last - start)).
