(** ReorderingUnstructuredGrid on top of UnstructuredGrid. Definitions only.

    Sources: storage/reorderingunstructuredgrid.h, storage/unstructuredgrid.h,
    both below /repo/src/libgeodecomp. Integers are unbounded. [None] is
    undefined behaviour (dereferencing the end of a vector) or an exception.
    Pointer arithmetic beyond the end of a vector (std::min(i + SIGMA, end()),
    line 228) is taken as harmless, and so is what the iterators of
    saveRegion and loadRegion do when they have reached the end (line 61). *)
From Verif Require Import Base RegionSpec RegionModel RegionIterModel RegionOpsModel CoordModel PatchModel PartitionManagerModel GridModel SellModel.

(** Members (reorderingunstructuredgrid.h:429-432); the delegate consists of
    cells and matrices (unstructuredgrid.h:390-391), the cells form a Grid with
    topology Cube<1>. *)
Record rgrid (A V : Type) := mkRGrid {
  rg_cells : vgrid A; rg_mats : list (sell V); rg_nodes : indices; rg_l2p : list (Z * Z); rg_p2l : list Z }.
Arguments mkRGrid {A V}. Arguments rg_cells {A V}. Arguments rg_mats {A V}. Arguments rg_nodes {A V}. Arguments rg_l2p {A V}. Arguments rg_p2l {A V}.

Definition cube1 : topology := [false].

(** The IDs of a node set, as enumerated by the loops over its Streaks (lines
    160-166, 221-225) and by its Iterator. *)
Definition node_ids (r : indices) : option (list Z) := option_map (map (hd 0)) (region_coords r).

(** [mapLogicalToPhysicalID] (lines 19-33): [Some None] is end(). *)
Definition map_id (l2p : list (Z * Z)) (id : Z) : option (option Z) :=
  obind (lower_bound l2p id) (fun p => if fst p =? id then Some (Some (snd p)) else Some None).

(** The loop at lines 227-235 over scopes of SIGMA rows; [n] bounds the number
    of passes. *)
Fixpoint sort_scopes (SIGMA : nat) (n : nat) (l : list (Z * Z)) : list (Z * Z) :=
  match n with
  | O => l
  | S n' =>
      match l with
      | [] => []
      | _ => stable_sort (fun a b => snd b <? snd a) (firstn SIGMA l) ++ sort_scopes SIGMA n' (skipn SIGMA l)
      end
  end.

Definition fun_set (f : Z -> Z) (x v : Z) : Z -> Z := fun z => if z =? x then v else f z.

Section Reorder.
Context {A V : Type} (zero : V) (dflt : A) (C SIGMA : Z) (MATRICES : nat).
Context (srt : list (entry V) -> list (entry V)).   (* std::sort by row and column *)

(** The constructor of the delegate (unstructuredgrid.h:55-65). *)
Definition rg_delegate (n : Z) (d e : A) : vgrid A * list (sell V) := (grid_make [n] d e, repeat (sell_make C n) MATRICES).

(** The constructor (reorderingunstructuredgrid.h:148-169). *)
Definition rg_make (nodes : indices) (d e : A) : option (rgrid A V) :=
  option_map (fun ids =>
    let k := Z.of_nat (length ids) in
    mkRGrid (fst (rg_delegate k d e)) (snd (rg_delegate k d e)) nodes (combine ids (zrange 0 k)) ids) (node_ids nodes).

(** [get] and [set] by logical ID (lines 517-541). An unknown ID causes set()
    to access the end of the vector. *)
Definition rg_get (g : rgrid A V) (id : Z) : option A :=
  obind (map_id (rg_l2p g) id) (fun o =>
    match o with Some p => grid_get cube1 (rg_cells g) [p] | None => Some (g_edge (rg_cells g)) end).

Definition rg_with (g : rgrid A V) (c : vgrid A) : rgrid A V := mkRGrid c (rg_mats g) (rg_nodes g) (rg_l2p g) (rg_p2l g).

Definition rg_set (g : rgrid A V) (id : Z) (v : A) : option (rgrid A V) :=
  obind (map_id (rg_l2p g) id) (fun o =>
    match o with Some p => option_map (rg_with g) (grid_set cube1 (rg_cells g) [p] v) | None => None end).

(** [setEdge], [getEdge] (lines 324-332) *)
Definition rg_set_edge (g : rgrid A V) (v : A) : rgrid A V := rg_with g (grid_set_edge (rg_cells g) v).
Definition rg_get_edge (g : rgrid A V) : A := g_edge (rg_cells g).

(** Lines 197-215: number of neighbors per node, and the nodes with neighbors
    missing. The std::map is a function, the Region mask a list. *)
Fixpoint row_lengths (nodes : indices) (m : list (entry V)) (st : (Z -> Z) * list Z) : option ((Z -> Z) * list Z) :=
  match m with
  | [] => Some st
  | ((x, y), _) :: m' =>
      obind (reg_count nodes [x]) (fun a =>
      if negb a then row_lengths nodes m' st
      else obind (reg_count nodes [y]) (fun b =>
           let '(len, mask) := st in
           if negb b || existsb (Z.eqb x) mask then row_lengths nodes m' (fun_set len x 0, x :: mask)
           else row_lengths nodes m' (fun_set len x (len x + 1), mask)))
  end.

(** The loop at lines 493-510. *)
Fixpoint move_cells (ids : list Z) (old new : list (Z * Z)) (src dst : vgrid A) : option (vgrid A) :=
  match ids with
  | [] => Some dst
  | i :: ids' =>
      obind (map_id new i) (fun a => obind a (fun p =>
      obind (map_id old i) (fun b => obind b (fun q =>
      obind (grid_get cube1 src [q]) (fun v =>
      obind (grid_set cube1 dst [p] v) (fun dst' => move_cells ids' old new src dst'))))))
  end.

(** [reorderDelegateGrid] (lines 490-515): cells and edge of the new delegate
    are default constructed. *)
Definition reorder_delegate (g : rgrid A V) (ids : list Z) (l2p : list (Z * Z)) (p2l : list Z) : option (rgrid A V) :=
  obind (bounding_box (rg_nodes g)) (fun b =>
  let n := hd 0 (b_dim b) in
  obind (move_cells ids (rg_l2p g) l2p (rg_cells g) (fst (rg_delegate n dflt dflt))) (fun cells =>
  Some (mkRGrid cells (snd (rg_delegate n dflt dflt)) (rg_nodes g) l2p p2l))).

(** Lines 255-281: the matrix in terms of physical IDs. *)
Fixpoint new_matrix (nodes : indices) (mask : list Z) (l2p : list (Z * Z)) (m : list (entry V)) : option (list (entry V)) :=
  match m with
  | [] => Some []
  | ((x, y), v) :: m' =>
      obind (reg_count nodes [x]) (fun a =>
      if negb a || existsb (Z.eqb x) mask then new_matrix nodes mask l2p m'
      else obind (map_id l2p x) (fun i => obind i (fun id1 =>
           obind (map_id l2p y) (fun j => obind j (fun id2 =>
           option_map (cons ((id1, id2), v)) (new_matrix nodes mask l2p m'))))))
  end.

(** [setWeights] (lines 195-284); the last step is UnstructuredGrid::setWeights
    (unstructuredgrid.h:86-90). *)
Definition rg_set_weights (g : rgrid A V) (k : Z) (m : list (entry V)) : option (rgrid A V) :=
  obind (row_lengths (rg_nodes g) m (fun _ => 0, [])) (fun '(len, mask) =>
  obind (node_ids (rg_nodes g)) (fun ids =>
  let order := map fst (sort_scopes (Z.to_nat SIGMA) (length ids) (map (fun i => (i, len i)) ids)) in
  let l2p := stable_sort (fun a b => fst a <? fst b) (combine order (zrange 0 (Z.of_nat (length order)))) in
  obind (reorder_delegate g ids l2p order) (fun g' =>
  obind (new_matrix (rg_nodes g) mask l2p m) (fun m' =>
  obind (vec_get (rg_mats g') k) (fun s =>
  obind (sell_init zero C SIGMA srt s m') (fun s' =>
  obind (vec_set (rg_mats g') k s') (fun mats =>
  Some (mkRGrid (rg_cells g') mats (rg_nodes g') (rg_l2p g') (rg_p2l g'))))))))).

(** [ReorderingRegionIterator] (lines 39-100): Streaks of length 1 at the
    physical IDs. An unknown ID leaves the previous Streak in place. *)
Fixpoint phys_streaks (l2p : list (Z * Z)) (cur : streak) (ids : list Z) : option (list streak) :=
  match ids with
  | [] => Some []
  | i :: ids' =>
      obind (map_id l2p i) (fun o =>
      let s := match o with Some p => mkStreak [] p (p + 1) | None => cur end in
      option_map (cons s) (phys_streaks l2p s ids'))
  end.

(** [saveRegion], [loadRegion] (lines 344-360), to and from vectors of cells;
    the offset is ignored. *)
Definition rg_save (g : rgrid A V) (r : indices) : option (list A) :=
  obind (node_ids r) (fun ids => obind (phys_streaks (rg_l2p g) (mkStreak [] 0 0) ids) (save_streaks cube1 (rg_cells g))).

Definition rg_load (g : rgrid A V) (r : indices) (vs : list A) : option (rgrid A V) :=
  obind (node_ids r) (fun ids => obind (phys_streaks (rg_l2p g) (mkStreak [] 0 0) ids) (fun ss =>
  option_map (rg_with g) (load_streaks cube1 (rg_cells g) ss vs))).

(** [remapRegion] (lines 366-382) *)
Fixpoint remap_ids (l2p : list (Z * Z)) (ids : list Z) (ret : indices) : option indices :=
  match ids with
  | [] => Some ret
  | i :: ids' => obind (map_id l2p i) (fun o => obind o (fun p => remap_ids l2p ids' (reg_insert_coord ret [p])))
  end.

Definition rg_remap (g : rgrid A V) (r : indices) : option indices :=
  obind (node_ids r) (fun ids => remap_ids (rg_l2p g) ids (reg_empty 1)).

(** [expandChunksInRemappedRegion] (lines 390-402) *)
Definition chunk_streak (s : streak) : streak := mkStreak (s_pre s) (Z.quot (s_x s) C * C) (Z.quot (s_e s + C - 1) C * C).

Definition rg_expand_chunks (r : indices) : option indices :=
  option_map (fun ss => fold_left (fun acc s => reg_insert acc (chunk_streak s)) ss (reg_empty 1)) (reg_streaks r).
End Reorder.

(** Histories of modifications. *)
Inductive uop (A V : Type) :=
| RSet (id : Z) (v : A)
| RSetEdge (v : A)
| RWeights (k : Z) (m : list (entry V))
| RLoad (r : indices) (vs : list A).
Arguments RSet {A V}. Arguments RSetEdge {A V}. Arguments RWeights {A V}. Arguments RLoad {A V}.

Section Ops.
Context {A V : Type} (zero : V) (dflt : A) (C SIGMA : Z) (MATRICES : nat) (srt : list (entry V) -> list (entry V)).

Definition rg_op (g : rgrid A V) (o : uop A V) : option (rgrid A V) :=
  match o with
  | RSet id v => rg_set g id v
  | RSetEdge v => Some (rg_set_edge g v)
  | RWeights k m => rg_set_weights zero dflt C SIGMA MATRICES srt g k m
  | RLoad r vs => rg_load g r vs
  end.

Fixpoint rg_ops (g : rgrid A V) (l : list (uop A V)) : option (rgrid A V) :=
  match l with [] => Some g | o :: l' => obind (rg_op g o) (fun g' => rg_ops g' l') end.
End Ops.
