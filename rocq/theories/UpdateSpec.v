(** Specification vocabulary for updates. *)
From Coq Require Import Permutation.
From Verif Require Import Base RegionSpec RegionModel RegionIterModel CoordModel CoordSpec GridModel GridSpec StencilModel StencilSpec UpdateModel.

(** The stencils which the path for fixed coordinates can be instantiated
    with. *)
Definition line_stencil (st : stencil) : Prop :=
  st_rad st = 1%nat /\ (1 <= st_dim st <= 3)%nat /\ st_shape st <> Cross.

(** The coordinates of the neighbors of a cell, in the order of the stencil's
    table. *)
Definition neighbors (st : stencil) (c : coord) : list coord := map (fun e => zadd c (fc_coord (st_dim st) (snd e))) (st_table st).

(** The orders in which the Streaks of a region, or parts of them, may be
    updated. *)
Inductive work_order (r : indices) : list streak -> Prop :=
| order_streaks ss ss' : reg_streaks r = Some ss -> Permutation ss ss' -> work_order r ss'
| order_tranches gran ss ps ps' : reg_streaks r = Some ss -> 1 <= gran -> Forall (fun s => 0 <= s_x s) ss ->
    cut_streaks gran ss = Some ps -> Permutation ps ps' -> work_order r ps'.
