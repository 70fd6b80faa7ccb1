(** ScotchPartition, PTScotchPartition and PTScotchUnstructuredPartition.
    Definitions only.

    Sources: geometry/partitions/scotchpartition.h,
    geometry/partitions/ptscotchpartition.h,
    geometry/partitions/ptscotchunstructuredpartition.h, all below
    /repo/src/libgeodecomp.

    The library SCOTCH is a parameter: a function from graphs and the
    description of the target architecture to the part of each vertex. [None]
    is undefined behaviour. Integers are unbounded; 2D and 3D only, as
    [dimensions[1]] doesn't exist for 1D. *)
From Verif Require Import Base RegionSpec RegionModel RegionIterModel CoordModel RegionOpsModel RegionObjModel PatchModel GridModel UpdateModel AdjacencyModel.

(** ** The graph of a regular grid *)

(** The number of edges (scotchpartition.h:71-80, ptscotchpartition.h:71-79) *)
Definition edge_number (dims : coord) : Z :=
  let X := axis 0 dims in let Y := axis 1 dims in let Z := axis 2 dims in
  let e := 2 * (X * (Y - 1) + (X - 1) * Y) in
  if (length dims =? 3)%nat then e * Z + 2 * (X * Y * (Z - 1)) else e.

(** What is appended to edgetabGra for cell [i] (scotchpartition.h:91-114,
    ptscotchpartition.h:90-114) *)
Definition edges_of (dims : coord) (i : Z) : list Z :=
  let X := axis 0 dims in let Y := axis 1 dims in let Z := axis 2 dims in
  let area := X * Y in
  let three := (length dims =? 3)%nat in
  (if i mod X =? 0 then [] else [i - 1]) ++
  (if i mod X =? X - 1 then [] else [i + 1]) ++
  (if i mod area <? X then [] else [i - X]) ++
  (if X * (Y - 1) <=? i mod area then [] else [i + X]) ++
  (if three && (X * Y <=? i) then [i - X * Y] else []) ++
  (if three && (i <? X * Y * (Z - 1)) then [i + X * Y] else []).

(** The loop over the cells (scotchpartition.h:87-116): verttabGra and
    edgetabGra; [n] cells remain. *)
Fixpoint csr_loop (edges : Z -> list Z) (n : nat) (i index : Z) : list Z * list Z :=
  match n with
  | O => ([index], [])
  | S n' =>
      let es := edges i in
      let (vt, et) := csr_loop edges n' (i + 1) (index + Z.of_nat (length es)) in (index :: vt, es ++ et)
  end.

(** Arguments of SCOTCH_graphBuild: verttab, edgetab, number of edges *)
Record graph := mkGraph { gr_vert : list Z; gr_edge : list Z; gr_num : Z }.

(** edgetabGra is allocated with [edge_number] elements
    (scotchpartition.h:82-128). *)
Definition grid_graph (dims : coord) : option graph :=
  let (vt, et) := csr_loop (edges_of dims) (Z.to_nat (prod dims)) 0 0 in
  if Z.of_nat (length et) <=? edge_number dims then Some (mkGraph vt et (edge_number dims)) else None.

(** ** From parts to regions *)

(** [indices[i]]; [beyond] is what is found behind the last element. *)
Definition read_part (beyond : option Z) (parts : list Z) (i : Z) : option Z :=
  match vec_get parts i with
  | Some p => Some p
  | None => if i =? Z.of_nat (length parts) then beyond else None
  end.

(** scotchpartition.h:157-172 *)
Definition start_coord (origin dims : coord) (start : Z) : coord :=
  let X := axis 0 dims in let Y := axis 1 dims in
  if (length dims =? 3)%nat then
    [axis 2 origin + start / (X * Y); axis 1 origin + start mod (X * Y) / X; axis 0 origin + start mod (X * Y) mod X]
  else [axis 1 origin + start / X; axis 0 origin + start mod X].

(** [createRegions] (scotchpartition.h:141-182, ptscotchpartition.h:143-182);
    [n] iterations remain. *)
Fixpoint regions_loop (beyond : option Z) (parts : list Z) (origin dims : coord) (n : nat) (i rank len start : Z) (rs : list indices)
  : option (list indices) :=
  match n with
  | O => Some rs
  | S n' =>
      obind (read_part beyond parts i) (fun p =>
      if (rank =? p) && (i <? prod dims) && negb (i mod axis 0 dims =? 0)
      then regions_loop beyond parts origin dims n' (i + 1) rank (len + 1) start rs
      else
        obind (vec_get rs rank) (fun r =>
        obind (reg_insert_box 1 r (mkBox (start_coord origin dims start) (repeat 1 (length dims - 1) ++ [len + 1]))) (fun r' =>
        obind (vec_set rs rank r') (fun rs' =>
        regions_loop beyond parts origin dims n' (i + 1) p 0 i rs'))))
  end.

Definition create_regions (beyond : option Z) (parts : list Z) (origin dims : coord) (num : nat) : option (list indices) :=
  obind (read_part beyond parts 0) (fun rank =>
  regions_loop beyond parts origin dims (Z.to_nat (prod dims)) 1 rank 0 0 (repeat (reg_empty (length dims)) num)).

(** The constructor (scotchpartition.h:26-40, ptscotchpartition.h:28-43);
    [scotch] gets the graph and the weights of the parts
    (SCOTCH_archCmpltw, SCOTCH_graphMap). *)
Definition scotch_partition (scotch : graph -> list Z -> list Z) (beyond : option Z) (origin dims : coord) (weights : list Z)
  : option (list indices) :=
  obind (grid_graph dims) (fun g => create_regions beyond (scotch g weights) origin dims (length weights)).

(** [getRegion] (scotchpartition.h:42-45) *)
Definition scotch_region (rs : option (list indices)) (node : nat) : option indices := obind rs (fun l => nth_error l node).

(** ** Unstructured grids *)

(** The loop (ptscotchunstructuredpartition.h:80-90): [et] is what
    edgetabGra holds so far. *)
Fixpoint adj_loop (a : radj) (n : nat) (i current : Z) (vt et : list Z) : option (list Z * list Z) :=
  match n with
  | O => Some (vt ++ [current], et)
  | S n' =>
      obind (ra_neighbors a i et) (fun et' =>
      adj_loop a n' (i + 1) (current + (Z.of_nat (length et') - Z.of_nat (length et))) (vt ++ [current]) et')
  end.

(** ptscotchunstructuredpartition.h:66-102: the number of edges is what the
    adjacency says. *)
Definition adj_graph (a : radj) (cells : nat) : option graph :=
  obind (ra_size a) (fun m => option_map (fun p => mkGraph (fst p) (snd p) m) (adj_loop a cells 0 0 [] [])).

(** [createRegions] (ptscotchunstructuredpartition.h:127-132) *)
Fixpoint coords_loop (parts : list Z) (i : Z) (rs : list indices) : option (list indices) :=
  match parts with
  | [] => Some rs
  | p :: parts' =>
      obind (vec_get rs p) (fun r => obind (vec_set rs p (reg_insert_coord r [i])) (fun rs' => coords_loop parts' (i + 1) rs'))
  end.

(** The constructor (ptscotchunstructuredpartition.h:30-64); [scotch] gets the
    graph and the number of parts (SCOTCH_graphPart). *)
Definition unstructured_scotch (scotch : graph -> nat -> list Z) (cells : nat) (weights : list Z) (a : radj) : option (list indices) :=
  obind (adj_graph a cells) (fun g => coords_loop (scotch g (length weights)) 0 (repeat (reg_empty 1) (length weights))).
