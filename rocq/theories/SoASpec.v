(** Specification vocabulary for grids with a Struct of Arrays layout. *)
From Verif Require Import Base RegionSpec RegionModel RegionRep HaloSpec PatchModel CoordModel CoordSpec GridModel GridSpec
  StencilModel StencilSpec UpdateModel UpdateSpec SoAModel.

(** The dimensions of the arrays: axes which don't wrap get as much padding on
    either side as the stencil is wide. Three axes in any case. *)
Fixpoint padded (t : topology) (R : Z) (dim : coord) : coord :=
  match t, dim with
  | w :: t', n :: dim' => (if w then n else n + 2 * R) :: padded t' R dim'
  | _, _ => []
  end.
Definition soa_dims (t : topology) (R : Z) (dim : coord) : coord := repeat 1 (3 - length t) ++ padded t R dim.

(** Sizes chosen for the arrays are never too small. *)
Definition sizes_ok (sizes : coord -> option coord) : Prop := forall dim ext, sizes dim = Some ext -> Forall2 Z.le dim ext.

Definition soa_setup (t : topology) (correct : bool) (R : Z) (b : box) (topo : coord) : Prop :=
  setup_ok t correct b topo /\ (length t <= 3)%nat /\ 0 <= R.

(** The coordinates an SoAGrid may be accessed with: unless it is
    topologically correct, those are the ones inside of the box along axes
    which wrap, and any along the others. *)
Definition soa_coord (t : topology) (correct : bool) (b : box) (topo : coord) (c : coord) : Prop :=
  if correct then reachable_coord t true b topo c
  else length c = length t /\ forall c', denotes t (b_dim b) (zsub c (b_origin b)) = Some c' -> c' = zsub c (b_origin b).

(** Coordinates of the neighbors which an update accesses. *)
Definition seen (t : topology) (acc : list fixed) (c : coord) : list coord := map (fun f => zadd c (fc_coord (length t) f)) acc.

(** Updates for which the neighborhood obeys the topology. The stencil must be
    of radius 1 if there are axes which wrap, and the grid must not be part of
    a space with mixed topology. In a space which doesn't wrap, regions have
    to stay where they are. *)
Definition update_ok (t : topology) (correct : bool) (st : stencil) (acc : list fixed) (b : box) (topo : coord) (bN : box)
    (soff toff : coord) (P : coord -> Prop) : Prop :=
  st_dim st = length t /\ Forall (in_stencil st) acc /\ (In true t -> (st_rad st <= 1)%nat) /\
  (topo = map (fun _ => 0) t \/
   (Forall2 Z.le (b_dim b) topo /\
    (t = torus (length t) \/ (t = cube (length t) /\ zsub soff (b_origin b) = zsub toff (b_origin bN))))) /\
  forall c, P c -> in_box b (zadd c soff) /\ in_box bN (zadd c toff) /\
    (correct = true -> Forall (reachable_coord t true b topo) (seen t acc (zadd c soff))).

Section Reach.
Context {C M : Type} (t : topology) (correct : bool) (st : stencil) (sizes : coord -> option coord) (junk : Z -> C).
Context (K : nat) (assemble : list M -> C).

(** What is stored at a place of the grid. *)
Definition soa_at (g : sgrid C) (p : place) : option C :=
  match p with Some c => sg_get t correct sizes g (zadd c (b_origin (sg_box g))) | None => Some (sg_edge g) end.

(** The states which can be reached. *)
Inductive sg_reach (b : box) (topo : coord) : sgrid C -> Prop :=
| sreach_make dflt edge g : sg_make t (Z.of_nat (st_rad st)) sizes junk b dflt edge topo = Some g -> sg_reach b topo g
| sreach_op g o g' : sg_reach b topo g -> access_ok (soa_coord t correct b topo) (in_box b) o ->
    sg_op t correct sizes g o = Some g' -> sg_reach b topo g'
| sreach_resize b0 g g' : sg_reach b0 topo g -> soa_setup t correct (Z.of_nat (st_rad st)) b0 topo ->
    sg_resize sizes junk g b = Some g' -> sg_reach b topo g'
| sreach_load g n r off buf g' : sg_reach b topo g -> length t = S n -> rvalid n r -> length off = S n ->
    (forall c, inr n r c -> in_box b (zadd c off)) -> sg_load sizes K assemble g r off buf = Some g' -> sg_reach b topo g'
| sreach_update b0 topo0 g0 g acc upd n r soff toff ss g' : sg_reach b0 topo0 g0 ->
    soa_setup t correct (Z.of_nat (st_rad st)) b0 topo0 -> sg_reach b topo g ->
    length t = S n -> length soff = S n -> length toff = S n -> rvalid n r -> work_order r ss ->
    update_ok t correct st acc b0 topo0 b soff toff (inr n r) ->
    sg_update t sizes acc upd false g0 g soff toff ss = Some g' -> sg_reach b topo g'.
End Reach.
