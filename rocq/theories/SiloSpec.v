(** Reading Silo files, independently of the writer. *)
From Verif Require Import Base RegionSpec RegionOpsModel CoordModel GridModel PatchModel PartitionManagerModel SiloModel.

Section Reader.
Context {N V : Type}.
Notation object := (object N V).

Definition object_name (o : object) : name :=
  match o with
  | Zonelist n _ _ _ _ _ _ | Ucdmesh n _ _ _ _ _ | Pointmesh n _ _ _ | Quadmesh n _ _ | Quadvar n _ _ _ | Pointvar n _ _ _ | Ucdvar n _ _ _ => n
  end.

Definition lookup (file : list object) (n : name) : option object :=
  find (fun o => PatchModel.coord_eqb (object_name o) n) file.

(** A zonelist consists of groups of zones of the same shape: [sizes] are the
    numbers of nodes per zone, [counts] the numbers of zones per group. *)
Definition zone_sizes (sizes counts : list Z) : list Z :=
  flat_map (fun '(s, c) => repeat s (Z.to_nat c)) (combine sizes counts).

(** The list of nodes must be used up. *)
Fixpoint cut_nodes (sizes nodes : list Z) : option (list (list Z)) :=
  match sizes with
  | [] => match nodes with [] => Some [] | _ => None end
  | s :: sizes' => if Z.of_nat (length nodes) <? s then None
                   else option_map (cons (firstn (Z.to_nat s) nodes)) (cut_nodes sizes' (skipn (Z.to_nat s) nodes))
  end.

Definition node_at (coords : list (list N)) (k : Z) : option (list N) := mapo (fun axis => vec_get axis k) coords.

(** The polygons of an unstructured mesh. Numbers must be consistent. *)
Definition read_polygons (file : list object) (label : name) : option (list (list (list N))) :=
  match lookup file label with
  | Some (Ucdmesh _ d coords n zones zl) =>
      match lookup file zl with
      | Some (Zonelist _ zones' d' nodes types sizes counts) =>
          if (d =? Z.of_nat (length coords)) && (d' =? d) && (zones' =? zones) && forallb (fun l => Z.of_nat (length l) =? n) coords
             && (length sizes =? length counts)%nat && (length types =? length counts)%nat && forallb (fun t => t =? polygon) types
          then obind (cut_nodes (zone_sizes sizes counts) nodes) (fun zs =>
               if Z.of_nat (length zs) =? zones then mapo (mapo (node_at coords)) zs else None)
          else None
      | _ => None
      end
  | _ => None
  end.

(** The points of a point mesh *)
Definition read_points (file : list object) (label : name) : option (list (list N)) :=
  match lookup file label with
  | Some (Pointmesh _ d coords n) =>
      if (d =? Z.of_nat (length coords)) && forallb (fun l => Z.of_nat (length l) =? n) coords
      then mapo (node_at coords) (zrange 0 n) else None
  | _ => None
  end.

(** Variables on items: one value per polygon or point. The mesh must exist. *)
Definition read_item_var (file : list object) (n : name) : option (name * list V) :=
  match lookup file n with
  | Some (Ucdvar _ mesh data k) =>
      match read_polygons file mesh with
      | Some ps => if (k =? Z.of_nat (length ps)) && (k =? Z.of_nat (length data)) then Some (mesh, data) else None
      | None => None
      end
  | Some (Pointvar _ mesh data k) =>
      match read_points file mesh with
      | Some ps => if (k =? Z.of_nat (length ps)) && (k =? Z.of_nat (length data)) then Some (mesh, data) else None
      | None => None
      end
  | _ => None
  end.

(** Regular grids: the extent of the zone with coordinate [c] (x first), per
    axis; the zone's value of a variable, x running fastest. *)
Fixpoint read_extents (coords : list (list N)) (c : list Z) : option (list (N * N)) :=
  match coords, c with
  | [], [] => Some []
  | l :: coords', i :: c' =>
      obind (vec_get l i) (fun a => obind (vec_get l (i + 1)) (fun b => option_map (cons (a, b)) (read_extents coords' c')))
  | _, _ => None
  end.

Definition read_zone (file : list object) (label : name) (c : list Z) : option (list (N * N)) :=
  match lookup file label with
  | Some (Quadmesh _ coords dims) => if PatchModel.coord_eqb dims (map (fun l => Z.of_nat (length l)) coords) then read_extents coords c else None
  | _ => None
  end.

Fixpoint zone_index (dims c : list Z) : Z :=
  match dims, c with n :: dims', i :: c' => i + n * zone_index dims' c' | _, _ => 0 end.

Definition read_zone_var (file : list object) (n : name) (c : list Z) : option (name * V) :=
  match lookup file n with
  | Some (Quadvar _ mesh data dims) =>
      match lookup file mesh with
      | Some (Quadmesh _ _ mdims) =>
          if PatchModel.coord_eqb mdims (map (fun k => k + 1) dims) && (Z.of_nat (length data) =? fold_right Z.mul 1 dims)
          then option_map (pair mesh) (vec_get data (zone_index dims c)) else None
      | _ => None
      end
  | _ => None
  end.
End Reader.
