(** Silo files (io/silowriter.h). Definitions only.

    The Silo library is represented by the objects a file consists of, in the
    order of the calls which create them. Values of variables are atomic, i.e.
    one external value takes one place in [variableData]; their representation
    as bytes is covered by SelectorModel. Cells contain items (e.g. particles)
    for the point mesh and the unstructured grid, as given by
    CollectionInterface. Allocation, labels' memory and errors of the Silo
    library are not modelled. *)
From Verif Require Import Base RegionSpec RegionModel RegionIterModel RegionOpsModel CoordModel GridModel PatchModel PartitionManagerModel ParamModel ImageModel.

(** Names are lists of bytes. *)
Notation name := (list Z).

(** Objects in a file: [DBPutZonelist2], [DBPutUcdmesh] (585-600),
    [DBPutPointmesh] (610), [DBPutQuadmesh] (625-626), [DBPutQuadvar1]
    (636-639), [DBPutPointvar1] (645-648), [DBPutUcdvar1] (654-657). *)
Inductive object (N V : Type) :=
  | Zonelist (nm : name) (zones dims : Z) (nodes : list Z) (types sizes counts : list Z)
  | Ucdmesh (nm : name) (dims : Z) (coords : list (list N)) (nodes zones : Z) (zonelist : name)
  | Pointmesh (nm : name) (dims : Z) (coords : list (list N)) (n : Z)
  | Quadmesh (nm : name) (coords : list (list N)) (dims : list Z)
  | Quadvar (nm mesh : name) (data : list V) (dims : list Z)
  | Pointvar (nm mesh : name) (data : list V) (n : Z)
  | Ucdvar (nm mesh : name) (data : list V) (n : Z).
Arguments Zonelist {N V}. Arguments Ucdmesh {N V}. Arguments Pointmesh {N V}. Arguments Quadmesh {N V}.
Arguments Quadvar {N V}. Arguments Pointvar {N V}. Arguments Ucdvar {N V}.

(** "zonelist" *)
Definition zonelist_name : name := [122; 111; 110; 101; 108; 105; 115; 116].

(** [DB_ZONETYPE_POLYGON] of silo.h *)
Definition polygon : Z := 20.

(** The members which hold data (silowriter.h:396-409). [coords] is a vector
    per axis, x first. *)
Record silo (N V : Type) := mkSilo {
  si_coords : list (list N); si_types : list Z; si_sizes : list Z; si_counts : list Z; si_data : list V; si_nodes : list Z;
  si_region : indices
}.
Arguments mkSilo {N V}. Arguments si_coords {N V}. Arguments si_types {N V}. Arguments si_sizes {N V}. Arguments si_counts {N V}.
Arguments si_data {N V}. Arguments si_nodes {N V}. Arguments si_region {N V}.

Section Silo.
Context {N V Cell P U : Type} (A : arith N).

(** Is [&v[0]] fine for empty vectors? By the standard it's undefined. *)
Context (lenient : bool).

(** DIM, the items in a cell and where they are. Coordinates are lists, x
    first. *)
Context (dim : nat) (points : Cell -> list P) (point : P -> list N) (shapes : Cell -> list U) (shape : U -> list (list N)).

(** Traits of the cell: [SelectUnstructuredGrid], [SelectPointMesh],
    [SelectRegularGrid] with spacing and origin (misc/apitraits.h:941-1001) *)
Context (has_shapes has_points : bool) (regular : option (list N * list N)).

(** Labels and selectors (silowriter.h:297-369); selectors consist of name and
    function. *)
Context (grid_label mesh_label point_label : name).
Context (cell_sels : list (name * (Cell -> V))) (shape_sels : list (name * (U -> V))) (point_sels : list (name * (P -> V))).

Notation silo := (silo N V). Notation object := (object N V).

(** [&v[0]] *)
Definition front {X} (l : list X) : option (list X) :=
  match l with [] => if lenient then Some [] else None | _ => Some l end.

(** A new writer: [coords(DIM)], all else empty. *)
Definition silo_new : silo := mkSilo (repeat [] dim) [] [] [] [] [] (reg_empty dim).

(** [flushDataStores] (504-515) *)
Definition flush (s : silo) : silo := mkSilo (map (fun _ => []) (si_coords s)) [] [] [] [] [] (si_region s).

(** [addPoint] (708-714): [coords[i] << coord[i]] *)
Fixpoint push_coord (cs : list (list N)) (p : list N) : list (list N) :=
  match cs, p with l :: cs', x :: p' => (l ++ [x]) :: push_coord cs' p' | _, _ => cs end.

Definition add_point (s : silo) (p : list N) : silo :=
  mkSilo (push_coord (si_coords s) p) (si_types s) (si_sizes s) (si_counts s) (si_data s) (si_nodes s) (si_region s).

(** [addCoord] (660-679): the node's number is the size of [coords[0]] before. *)
Definition add_coord (s : silo) (p : list N) : silo :=
  mkSilo (push_coord (si_coords s) p) (si_types s) (si_sizes s) (si_counts s) (si_data s)
    (si_nodes s ++ [Z.of_nat (length (hd [] (si_coords s)))]) (si_region s).

(** [addShape] (716-727) *)
Definition add_shape (s : silo) (sh : list (list N)) : silo :=
  fold_left add_coord sh
    (mkSilo (si_coords s) (si_types s ++ [polygon]) (si_sizes s ++ [Z.of_nat (length sh)]) (si_counts s ++ [1]) (si_data s) (si_nodes s) (si_region s)).

(** For all cells of the grid, in the order of the CoordBox: [collectPoints],
    [collectShapes] (517-539) with [addPoints], [addShapes] (681-695). *)
Fixpoint over_cells (f : silo -> Cell -> option silo) (g : gview Cell) (cs : list coord) (s : silo) : option silo :=
  match cs with [] => Some s | c :: cs' => obind (v_get g c) (fun x => obind (f s x) (over_cells f g cs')) end.

Definition box_fuel (b : box) : nat := Z.to_nat (prod (b_dim b)).

Definition collect_points (g : gview Cell) (s : silo) : option silo :=
  obind (box_coords (box_fuel (v_box g)) (v_box g)) (fun cs =>
  over_cells (fun s x => Some (fold_left (fun s p => add_point s (point p)) (points x) s)) g cs s).

Definition collect_shapes (g : gview Cell) (s : silo) : option silo :=
  obind (box_coords (box_fuel (v_box g)) (v_box g)) (fun cs =>
  over_cells (fun s x => Some (fold_left (fun s u => add_shape s (shape u)) (shapes x) s)) g cs s).

(** [collectVariable] for items (553-567) with [addVariable] (697-706): the
    vector is enlarged, the values are written behind those of the former
    cells. *)
Definition set_data (s : silo) (d : list V) : silo :=
  mkSilo (si_coords s) (si_types s) (si_sizes s) (si_counts s) d (si_nodes s) (si_region s).

Definition collect_items {I} (items : Cell -> list I) (sel : I -> V) (g : gview Cell) (s : silo) : option silo :=
  obind (box_coords (box_fuel (v_box g)) (v_box g)) (fun cs =>
  over_cells (fun s x => option_map (set_data s) (front (si_data s ++ map sel (items x)))) g cs s).

(** [collectVariable] for cells (541-551): the Region is only updated if its
    bounding box differs from the grid's. [saveMemberUnchecked] stores the
    members of the Region's cells one after the other. *)
Definition update_region (b : box) (r : indices) : option indices :=
  obind (bounding_box r) (fun rb => if negb (box_eqb rb b) then reg_insert_box (box_fuel b) (reg_empty dim) b else Some r).

Definition collect_cells (sel : Cell -> V) (g : gview Cell) (s : silo) : option silo :=
  obind (update_region (v_box g) (si_region s)) (fun r =>
  obind (region_coords r) (fun cs =>
  obind (mapo (v_get g) cs) (fun xs =>
  option_map (fun d => mkSilo (si_coords s) (si_types s) (si_sizes s) (si_counts s) d (si_nodes s) r) (front (map sel xs))))).

(** [collectRegularGridGeometry] (569-581) *)
Fixpoint ticks (cs : list (list N)) (spacing origin : list N) (n : list Z) : list (list N) :=
  match cs, spacing, origin, n with
  | l :: cs', q :: spacing', o :: origin', k :: n' =>
      (l ++ map (fun i => a_add A o (a_mul A q (a_ofZ A i))) (zrange 0 (k + 1))) :: ticks cs' spacing' origin' n'
  | _, _, _, _ => cs
  end.

Definition collect_regular (spacing origin : list N) (g : gview Cell) (s : silo) : silo :=
  mkSilo (ticks (si_coords s) spacing origin (rev (b_dim (v_box g)))) (si_types s) (si_sizes s) (si_counts s) (si_data s) (si_nodes s) (si_region s).

(** [outputUnstructuredMesh] (583-601) *)
Definition output_ucdmesh (s : silo) : option (list object) :=
  obind (front (si_nodes s)) (fun nodes => obind (front (si_types s)) (fun types =>
  obind (front (si_sizes s)) (fun sizes => obind (front (si_counts s)) (fun counts =>
  obind (mapo front (si_coords s)) (fun coords =>
  let zones := fold_right Z.add 0 counts in
  Some [Zonelist zonelist_name zones (Z.of_nat dim) nodes types sizes counts;
        Ucdmesh mesh_label (Z.of_nat dim) coords (Z.of_nat (length nodes)) zones zonelist_name]))))).

(** [outputPointMesh] (603-611) *)
Definition output_pointmesh (s : silo) : option (list object) :=
  obind (mapo front (si_coords s)) (fun coords =>
  Some [Pointmesh point_label (Z.of_nat dim) coords (Z.of_nat (length (hd [] (si_coords s))))]).

(** [outputRegularGrid] (613-627) *)
Definition output_quadmesh (s : silo) : option (list object) :=
  obind (mapo front (si_coords s)) (fun coords =>
  Some [Quadmesh grid_label coords (map (fun l => Z.of_nat (length l)) (si_coords s))]).

(** [handleUnstructuredGrid], [handlePointMesh], [handleRegularGrid]
    (444-478) *)
Definition handle_shapes (g : gview Cell) (s : silo) : option (silo * list object) :=
  if has_shapes then obind (collect_shapes g (flush s)) (fun s' => option_map (fun o => (s', o)) (output_ucdmesh s')) else Some (s, []).

Definition handle_points (g : gview Cell) (s : silo) : option (silo * list object) :=
  if has_points then obind (collect_points g (flush s)) (fun s' => option_map (fun o => (s', o)) (output_pointmesh s')) else Some (s, []).

Definition handle_regular (g : gview Cell) (s : silo) : option (silo * list object) :=
  match regular with
  | Some (spacing, origin) =>
      let s' := collect_regular spacing origin g (flush s) in option_map (fun o => (s', o)) (output_quadmesh s')
  | None => Some (s, [])
  end.

(** [handleVariable] (480-486) and [outputVariable] (629-640);
    [handleVariableForPointMesh], [handleVariableForUnstructuredGrid]
    (488-502) and [outputVariableForPointMesh],
    [outputVariableForUnstructuredGrid] (642-658) *)
Definition handle_cell_var (g : gview Cell) (sel : name * (Cell -> V)) (s : silo) : option (silo * list object) :=
  obind (collect_cells (snd sel) g (flush s)) (fun s' =>
  Some (s', [Quadvar (fst sel) grid_label (si_data s') (rev (b_dim (v_box g)))])).

Definition handle_point_var (g : gview Cell) (sel : name * (P -> V)) (s : silo) : option (silo * list object) :=
  obind (collect_items points (snd sel) g (flush s)) (fun s' =>
  obind (front (si_data s')) (fun d => Some (s', [Pointvar (fst sel) point_label d (Z.of_nat (length d))]))).

Definition handle_shape_var (g : gview Cell) (sel : name * (U -> V)) (s : silo) : option (silo * list object) :=
  obind (collect_items shapes (snd sel) g (flush s)) (fun s' =>
  obind (front (si_data s')) (fun d => Some (s', [Ucdvar (fst sel) mesh_label d (Z.of_nat (length d))]))).

(** Steps which add objects to the file, one after the other *)
Fixpoint chain (l : list (silo -> option (silo * list object))) (s : silo) : option (silo * list object) :=
  match l with
  | [] => Some (s, [])
  | f :: l' => obind (f s) (fun '(s1, o1) => obind (chain l' s1) (fun '(s2, o2) => Some (s2, o1 ++ o2)))
  end.

(** The name of the file (374-376): prefix, '.', step, ".silo" *)
Definition pad5 (l : list Z) : list Z := repeat 48 (5 - length l) ++ l.
Definition silo_name (prefix : name) (step : Z) : name := prefix ++ [46] ++ pad5 (dec step) ++ [46; 115; 105; 108; 111].

(** [stepFinished] (372-394): the file's name and its contents. The event
    does not matter. *)
Definition silo_objects (g : gview Cell) : silo -> option (silo * list object) :=
  chain ([handle_shapes g; handle_points g; handle_regular g] ++ map (handle_cell_var g) cell_sels ++
         map (handle_shape_var g) shape_sels ++ map (handle_point_var g) point_sels).

Definition silo_step (prefix : name) (g : gview Cell) (step : Z) (s : silo) : option (silo * (name * list object)) :=
  option_map (fun '(s', o) => (s', (silo_name prefix step, o))) (silo_objects g s).
End Silo.
