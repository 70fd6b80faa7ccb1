(** MultiContainerCell, NeighborhoodAdapter and PassThroughContainer.
    Definitions only.

    Sources, all below /repo/src/libgeodecomp/storage: multicontainercell.h,
    neighborhoodadapter.h, passthroughcontainer.h, containercell.h,
    boxcell.h, neighborhooditerator.h.

    A cell generated by DECLARE_MULTI_CONTAINER_CELL is the list of its
    members. The types of all cargo are one type here, accesses which C++ would
    refuse to compile (e.g. to a member which is missing or of another kind)
    are [None], just as undefined behaviour. Neighborhoods are maps from
    relative coordinates to places of the old grid (see BoxModel). ContainerCell
    has the keys int. *)
From Verif Require Import Base CoordModel RegionOpsModel GridModel UpdateModel ArrayModel ParamModel GridSpec BoxModel.

(** What the update() of a cargo does: it reads from the neighborhood, spawns
    particles, and finally assigns a new state to itself or throws. Reading
    by ID may throw, in which case update() may carry on. *)
Inductive kernel (V : Type) :=
| KDone (v : V)
| KRaise
| KId (m : nat) (id : Z) (k : option V -> kernel V)   (* hood.member[id] *)
| KAt (m : nat) (c : coord) (k : V -> kernel V)       (* hood.member[coord] *)
| KAll (m : nat) (k : list V -> kernel V)             (* hood.member.begin() to end() *)
| KSpawn (m : nat) (v : V) (k : kernel V).            (* hood->member << v *)
Arguments KDone {V}. Arguments KRaise {V}. Arguments KId {V}. Arguments KAt {V}. Arguments KAll {V}. Arguments KSpawn {V}.

(** ContainerCell, BoxCell and PassThroughContainer
    (passthroughcontainer.h:81) *)
Inductive member (N V : Type) := MContainer (c : ccell V) | MBox (b : boxcell N V) | MSingle (v : V).
Arguments MContainer {N V}. Arguments MBox {N V}. Arguments MSingle {N V}.

Section Multi.
Context {N V : Type}.
Variable cells : place -> list (member N V).
Variable hood : coord -> place.
Variable n : nat. (* DIM *)

Definition as_container (m : member N V) : option (ccell V) := match m with MContainer c => Some c | _ => None end.
Definition as_box (m : member N V) : option (boxcell N V) := match m with MBox b => Some b | _ => None end.
Definition as_single (m : member N V) : option V := match m with MSingle v => Some v | _ => None end.

(** The member of a neighboring cell: [COLLECTION_INTERFACE()] (multicontainercell.h:37-51) *)
Definition old_member (m : nat) (rel : coord) : option (member N V) := nth_error (cells (hood rel)) m.

(** ** NeighborhoodAdapter *)

Definition probe (m : nat) (id : Z) (rel : coord) : option (option V) :=
  obind (obind (old_member m rel) as_container) (fun c => cc_lookup c id).

(** The loop (neighborhoodadapter.h:54-61) *)
Fixpoint probe_all (m : nat) (id : Z) (rels : list coord) : option (option V) :=
  match rels with
  | [] => Some None
  | rel :: rels' =>
      if CoordModel.coord_eqb rel (diagonal n 0) then probe_all m id rels'
      else obind (probe m id rel) (fun r => match r with Some v => Some (Some v) | None => probe_all m id rels' end)
  end.

(** [operator[]] (neighborhoodadapter.h:45-65). [Some None]: it throws. *)
Definition adapter_get (m : nat) (id : Z) : option (option V) :=
  obind (probe m id (diagonal n 0)) (fun r =>
  match r with
  | Some v => Some (Some v)
  | None => obind (box_coords (hood_fuel n) (hood_box n)) (probe_all m id)
  end).

(** ** The other adapters *)

(** [ValueWrapper::operator[]] (passthroughcontainer.h:72-75). The stencil is
    Moore of radius 1 (see ContainerCell::API, containercell.h:53-56). *)
Definition in_moore (rel : coord) : bool := (length rel =? n)%nat && forallb (fun x => (-1 <=? x) && (x <=? 1)) rel.
Definition single_get (m : nat) (rel : coord) : option V := if in_moore rel then obind (old_member m rel) as_single else None.

(** The boxes of all cells; where there's none this can't be called in C++. *)
Definition old_boxes (m : nat) (p : place) : boxcell N V :=
  match nth_error (cells p) m with Some (MBox b) => b | _ => mkBoxCell [] [] [] end.

(** The particles from begin() to end() of an [Adapter]
    (neighborhooditerator.h:18-55) *)
Definition all_get (m : nat) : option (list V) :=
  obind (obind (old_member m (diagonal n 0)) as_box) (fun _ => hood_particles (old_boxes m) hood n).

(** ** Updates *)

Variable A : arith N.
Variable pos : V -> list N.             (* getPos() *)
Variable cap : nat -> option nat.       (* capacities of the BoxCells' FixedArrays, None: std::vector *)
Variable kern : nat -> nat -> V -> kernel V. (* member, nano step, state of the cargo *)
Variable nano : nat.

(** One call of update(). [cur] is the member whose cargo it belongs to. The
    result: the cell after spawning (BoxCell's [operator<<],
    boxcell.h:105-110; reached via [operator->], multicontainercell.h:129-132),
    and the new state, if update() didn't throw. FixedArrays which are full throw.
    Appending to a std::vector while iterating over it is undefined (it is in case of
    a reallocation). *)
Fixpoint run_kernel (cur : nat) (k : kernel V) (new : list (member N V)) : option (list (member N V) * option V) :=
  match k with
  | KDone v => Some (new, Some v)
  | KRaise => Some (new, None)
  | KId m id k' => obind (adapter_get m id) (fun r => run_kernel cur (k' r) new)
  | KAt m c k' => obind (single_get m c) (fun v => run_kernel cur (k' v) new)
  | KAll m k' => obind (all_get m) (fun l => run_kernel cur (k' l) new)
  | KSpawn m v k' =>
      obind (obind (nth_error new m) as_box) (fun b =>
      if (m =? cur)%nat && match cap m with None => true | Some _ => false end then None
      else match push (cap m) (bx_parts b) v with
           | Done l => obind (vec_put new m (MBox (mkBoxCell (bx_origin b) (bx_dim b) l))) (run_kernel cur k')
           | Threw _ => Some (new, None)
           end)
  end.

(** The elements of a member. *)
Definition elements (m : member N V) : option (list V) :=
  match m with
  | MContainer c => vec_read (cc_cells c) 0 (Z.to_nat (cc_num c))
  | MBox b => Some (bx_parts b)
  | MSingle v => Some [v]
  end.

(** Assigning to the [j]th element. *)
Definition set_element (m : member N V) (j : nat) (v : V) : option (member N V) :=
  match m with
  | MContainer c => option_map (fun l => MContainer (mkCC (cc_ids c) l (cc_num c))) (vec_set (cc_cells c) (Z.of_nat j) v)
  | MBox b => option_map (fun l => MBox (mkBoxCell (bx_origin b) (bx_dim b) l)) (vec_put (bx_parts b) j v)
  | MSingle _ => match j with O => Some (MSingle v) | S _ => None end
  end.

(** [updateCargo] (containercell.h:186-192, boxcell.h:140-152,
    passthroughcontainer.h:46-52): [count] elements are left, the next one is the
    [j]th. The number of elements is determined beforehand. For ContainerCells the
    loop does so in each iteration, but nothing can be inserted there. *)
Fixpoint update_cargo (i j count : nat) (new : list (member N V)) : option (result (list (member N V))) :=
  match count with
  | O => Some (Done new)
  | S count' =>
      obind (obind (nth_error new i) elements) (fun l =>
      obind (nth_error l j) (fun v =>
      obind (run_kernel i (kern i nano v) new) (fun '(new1, r) =>
      match r with
      | None => Some (Threw new1)
      | Some v' =>
          obind (nth_error new1 i) (fun m =>
          obind (set_element m j v') (fun m' =>
          obind (vec_put new1 i m') (update_cargo i (S j) count')))
      end)))
  end.

(** [copyOver] (containercell.h:175-179, boxcell.h:123-138,
    passthroughcontainer.h:40-44) *)
Definition copy_member (i : nat) : option (result (member N V)) :=
  obind (old_member i (diagonal n 0)) (fun m =>
  match m with
  | MContainer c => Some (Done (MContainer c))
  | MSingle v => Some (Done (MSingle v))
  | MBox _ => option_map (fun r => match r with Done b => Done (MBox b) | Threw b => Threw (MBox b) end)
                (copy_over (old_boxes i) hood n A pos (cap i) nano)
  end).

(** DECLARE_MULTI_CONTAINER_COPY_MEMBER for members [i] onwards
    (multicontainercell.h:70-74, 158-161) *)
Fixpoint copy_all (i : nat) (count : nat) : option (result (list (member N V))) :=
  match count with
  | O => Some (Done [])
  | S count' =>
      obind (copy_member i) (fun r =>
      match r with
      | Done m => option_map (fun r' => match r' with Done l => Done (m :: l) | Threw l => Threw (m :: l) end) (copy_all (S i) count')
      | Threw m => Some (Threw [m])
      end)
  end.

(** DECLARE_MULTI_CONTAINER_CELL_UPDATE for members [i] onwards
    (multicontainercell.h:76-77, 163-166) *)
Fixpoint update_all (i : nat) (count : nat) (new : list (member N V)) : option (result (list (member N V))) :=
  match count with
  | O => Some (Done new)
  | S count' =>
      obind (obind (nth_error new i) elements) (fun l =>
      obind (update_cargo i 0 (length l) new) (fun r =>
      match r with Done new1 => update_all (S i) count' new1 | Threw new1 => Some (Threw new1) end))
  end.

(** [update] of the generated cell (multicontainercell.h:150-167). If copyOver throws, the
    state left behind comprises the members copied so far only. With a single
    member this is the [update] of ContainerCell (containercell.h:164-173) or
    BoxCell (boxcell.h:112-121). *)
Definition multi_update : option (result (list (member N V))) :=
  obind (copy_all 0 (length (cells (hood (diagonal n 0))))) (fun r =>
  match r with
  | Done new => update_all 0 (length new) new
  | Threw new => Some (Threw new)
  end).

End Multi.
