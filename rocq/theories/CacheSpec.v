(** Specification vocabulary for simulations which run several time steps in
    one sweep. *)
From Verif Require Import Base RegionSpec CoordModel CoordSpec GridModel GridSpec StencilModel UpdateModel UpdateSpec.

(** The cells at [n] nano steps after the start: each one is the update of its
    neighborhood one nano step before. *)
Fixpoint world {C} (t : topology) (dim : coord) (st : stencil) (nanos : nat) (upd : nat -> list C -> C) (init : place -> C) (n : nat) (p : place) : C :=
  match n with
  | O => init p
  | S m =>
      match p with
      | None => init None
      | Some c => upd (Nat.modulo m nanos) (map (fun c' => world t dim st nanos upd init m (denotes t dim c')) (neighbors st c))
      end
  end.

(** A grid with the given contents. *)
Definition holds {C} (t : topology) (dim : coord) (g : vgrid C) (f : place -> C) : Prop :=
  g_dim g = dim /\ g_edge g = f None /\ forall c, in_grid dim c -> grid_get t g c = Some (f (Some c)).

(** A row of the plane: the wavefront from [o] on, of extent [w], clipped to
    [n] cells, then extended by [k] cells in both directions, and clipped
    again. *)
Definition grown (o w n k x : Z) : Prop := o - k <= x < Z.min (o + w) n + k /\ 0 <= x < n.
