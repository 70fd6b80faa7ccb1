(** PartitionManager (/repo/src/libgeodecomp/geometry/partitionmanager.h):
    a node's region, its halo, its rims and inner sets and the ghost zone
    fragments shared with other nodes. Definitions only.

    Simplifications: the cache [regions] (a map filled on demand by
    [getRegion], lines 159-167) is left out, the regions are recomputed; the
    default constructor (40-61) is not modelled. *)
From Verif Require Import Base CoordModel RegionModel RegionOpsModel.

(** The topology of the simulation space, as seen by
    [Region::expandWithTopology] with an adjacency (region.h:840-858):
    a regular grid of the given dimensions, whose adjacency argument is
    ignored, or an unstructured grid whose adjacencies are produced by the
    AdjacencyManufacturer (adjacencymanufacturer.h:28-41): [adj r] is
    [*getAdjacency(r)], [radj r] is [*getReverseAdjacency(r)]. *)
Inductive space :=
| Regular (dim : coord) (t : topology)
| Unstructured (adj radj : indices -> Z -> list Z).

(** [reg.expandWithTopology(w, simulationArea.dimensions, Topology(),
    *adjacency(reg))] *)
Definition sp_expand (sp : space) (w : nat) (r : indices) : option indices :=
  match sp with
  | Regular dim t => reg_expand_topology r (Z.of_nat w) dim t
  | Unstructured adj _ => reg_expand_adjacency r w (adj r)
  end.

(** The same with [*reverseAdjacency(reg)]. *)
Definition sp_rexpand (sp : space) (w : nat) (r : indices) : option indices :=
  match sp with
  | Regular dim t => reg_expand_topology r (Z.of_nat w) dim t
  | Unstructured _ radj => reg_expand_adjacency r w (radj r)
  end.

(** [k] successive expansions by 1: [[r; r expanded once; ...]]. *)
Fixpoint expansions (sp : space) (k : nat) (r : indices) : option (list indices) :=
  match k with
  | O => Some [r]
  | S k' => obind (sp_expand sp 1 r) (fun r' =>
            obind (expansions sp k' r') (fun l => Some (r :: l)))
  end.

(** [fillRegion] (partitionmanager.h:267-282) and [getRegion] (154-162): the
    region of a node, expanded 0, ..., ghostZoneWidth times. [part] is the
    partition's [getRegion]. *)
Definition fill_region (sp : space) (part : nat -> option indices) (gzw node : nat)
    : option (list indices) :=
  obind (part node) (expansions sp gzw).

(** [getRegion(node, e)]; [None] also if [e] is out of range. *)
Definition pm_region (sp : space) (part : nat -> option indices) (gzw node e : nat) : option indices :=
  obind (fill_region sp part gzw node) (fun l => nth_error l e).

(** The members set by [fillOwnRegion]. [pm_rims] and [pm_inner] are indexed
    as in the C++ class: 0 is the widest set. *)
Record pm := mkPM {
  pm_own : list indices;      (* regions[myRank] *)
  pm_outer_rim : indices;
  pm_rims : list indices;
  pm_inner : list indices;
  pm_volatile : indices;
  pm_inner_rim : indices
}.

(** [fillOwnRegion] (partitionmanager.h:284-324). The vectors of rims and
    inner sets are built from their last element to the first. *)
Definition fill_own_region (sp : space) (part : nat -> option indices) (gzw rank : nat) : option pm :=
  obind (fill_region sp part gzw rank) (fun regs =>
  obind (nth_error regs 0) (fun own =>
  obind (nth_error regs gzw) (fun expanded =>
  obind (sp_rexpand sp 1 own) (fun own1 =>
  obind (reg_diff own1 own) (fun surface =>
  obind (sp_expand sp gzw surface) (fun thick =>
  obind (reg_diff own thick) (fun kernel =>
  obind (reg_diff expanded own) (fun outer =>
  obind (reg_diff own kernel) (fun rim =>
  obind (expansions sp gzw rim) (fun rims =>
  obind (expansions sp gzw kernel) (fun inner =>
  obind (nth_error (rev rims) 0) (fun rim0 =>
  obind (reg_isect kernel rim0) (fun vol =>
    Some (mkPM regs outer (rev rims) (rev inner) vol vol)))))))))))))).

(** [Region::boundingBox] (region.h:707-713) of a region whose cache is
    stale or was never filled. *)
Definition bounding_box (r : indices) : option box := option_map fst (determine_geometry r).

(** Loops [for (i = 0; i <= ghostZoneWidth; ++i)] over two vectors. *)
Fixpoint map2o {A B C} (f : A -> B -> option C) (l : list A) (m : list B) : option (list C) :=
  match l, m with
  | a :: l', b :: m' => obind (f a b) (fun c => obind (map2o f l' m') (fun r => Some (c :: r)))
  | _, _ => Some []
  end.

Fixpoint mapo {A B} (f : A -> option B) (l : list A) : option (list B) :=
  match l with
  | [] => Some []
  | a :: l' => obind (f a) (fun b => obind (mapo f l') (fun r => Some (b :: r)))
  end.

(** [intersect] (partitionmanager.h:326-351): the two vectors of fragments
    shared with [node], [None] inside for an erased entry. *)
Definition pm_intersect (sp : space) (part : nat -> option indices) (gzw rank node : nat)
    : option (option (list indices) * option (list indices)) :=
  obind (fill_region sp part gzw rank) (fun mine =>
  obind (fill_region sp part gzw node) (fun theirs =>
  obind (nth_error mine 0) (fun mine0 =>
  obind (nth_error theirs 0) (fun theirs0 =>
  obind (mapo (fun r => reg_isect r theirs0) mine) (fun outer =>
  obind (mapo (fun r => reg_isect mine0 r) theirs) (fun inner =>
  Some (if forallb reg_is_empty outer then None else Some outer,
        if forallb reg_is_empty inner then None else Some inner))))))).

(** One round of the loop in [resetGhostZones] (partitionmanager.h:98-108):
    the fragments shared with node [i]. [boxes] and [ex_boxes] are the
    gathered bounding boxes of all nodes' regions and expanded regions. *)
Definition pm_exchange (sp : space) (part : nat -> option indices) (gzw rank : nat)
    (boxes ex_boxes : list box) (i : nat) : option (option (list indices) * option (list indices)) :=
  if Nat.eqb i rank then Some (None, None)
  else
    obind (pm_region sp part gzw rank 0) (fun own =>
    obind (pm_region sp part gzw rank gzw) (fun own_ex =>
    obind (bounding_box own) (fun own_box =>
    obind (bounding_box own_ex) (fun own_ex_box =>
    obind (nth_error boxes i) (fun b =>
    obind (nth_error ex_boxes i) (fun eb =>
    if box_intersects b own_ex_box || box_intersects eb own_box then
      obind (pm_region sp part gzw i 0) (fun r =>
      obind (pm_region sp part gzw i gzw) (fun r_ex =>
      obind (reg_isect own_ex r) (fun a =>
      obind (reg_isect r_ex own) (fun b =>
      if negb (reg_is_empty a) || negb (reg_is_empty b)
      then pm_intersect sp part gzw rank i
      else Some (None, None)))))
    else Some (None, None))))))).

(** The maps [outerGhostZoneFragments] and [innerGhostZoneFragments] without
    the out-group entry, sorted by node, and the two out-group fragments
    ([resetGhostZones], partitionmanager.h:85-132). *)
Record ghosts := mkGhosts {
  g_outer : list (nat * list indices);
  g_inner : list (nat * list indices);
  g_out_outer : indices;
  g_out_inner : indices
}.

Definition last_region (l : list indices) : option indices := nth_error (rev l) 0.

(** [outer -= i->second.back()] for all entries. *)
Fixpoint subtract_backs (r : indices) (m : list (nat * list indices)) : option indices :=
  match m with
  | [] => Some r
  | (_, l) :: m' => obind (last_region l) (fun b => obind (reg_diff r b) (fun r' => subtract_backs r' m'))
  end.

Definition entries (l : list (nat * option (list indices))) : list (nat * list indices) :=
  flat_map (fun '(i, o) => match o with Some v => [(i, v)] | None => [] end) l.

(** Entry of such a map. *)
Definition frag (m : list (nat * list indices)) (j : nat) : option (list indices) :=
  option_map snd (find (fun x => Nat.eqb (fst x) j) m).

Definition reset_ghost_zones (sp : space) (part : nat -> option indices) (gzw rank : nat)
    (p : pm) (boxes ex_boxes : list box) : option ghosts :=
  obind (mapo (fun i => option_map (fun x => (i, x)) (pm_exchange sp part gzw rank boxes ex_boxes i))
              (seq 0 (length boxes))) (fun l =>
  let outer := entries (map (fun '(i, (o, _)) => (i, o)) l) in
  let inner := entries (map (fun '(i, (_, o)) => (i, o)) l) in
  obind (nth_error (pm_rims p) gzw) (fun rim =>
  obind (subtract_backs (pm_outer_rim p) outer) (fun out_outer =>
  obind (subtract_backs rim inner) (fun out_inner =>
    Some (mkGhosts outer inner out_outer out_inner))))).

(** [UpdateGroup::init] (parallelization/nesting/updategroup.h:156-180) up to
    [resetGhostZones]: the bounding boxes are gathered from all [n] nodes
    ([gatherBoundingBoxes], mpiupdategroup.h:73-81). *)
Definition gather_boxes (sp : space) (part : nat -> option indices) (gzw n e : nat) : option (list box) :=
  mapo (fun i => obind (pm_region sp part gzw i e) bounding_box) (seq 0 n).

Definition setup_node (sp : space) (part : nat -> option indices) (gzw n rank : nat)
    : option (pm * ghosts) :=
  obind (fill_own_region sp part gzw rank) (fun p =>
  obind (gather_boxes sp part gzw n 0) (fun boxes =>
  obind (gather_boxes sp part gzw n gzw) (fun ex_boxes =>
  obind (reset_ghost_zones sp part gzw rank p boxes ex_boxes) (fun g => Some (p, g))))).
