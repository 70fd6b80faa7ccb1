(** Specification vocabulary for CollectingWriter. *)
From Verif Require Import Base RegionSpec RegionModel RegionRep HaloSpec CoordModel CoordSpec GridModel GridSpec GridReach CollectModel.

Section Spec.
Context {C E : Type}.
Variable t : topology.
Variable correct : bool.
Variable n : nat.
Variable dims : coord.
Variable size root num : nat.
Variable calls : nat -> nat -> wcall C E.
Variable G : nat -> coord -> C.          (* the global state at the time of the i-th calls *)

(** Each call passes a part of the global state: a region of the global grid,
    stored in a grid which was set up properly and agrees with the global
    state there. *)
Definition call_ok (i : nat) (k : wcall C E) : Prop :=
  k_dims k = dims /\ rvalid n (k_region k) /\ (forall c, inr n (k_region k) c -> in_grid dims c) /\
  exists b topo, setup_ok t correct b topo /\ dg_reach t correct b topo (k_grid k) /\
    transfer_ok t correct b topo (inr n (k_region k)) (zeros dims) /\
    forall c, inr n (k_region k) c -> dg_get t correct (k_grid k) c = Some (G i c).

(** Calls [i0] to [i] report the same state, and each coordinate at least
    once. (Simulators call writers several times per step, e.g. for ghost zones
    and inner sets.) *)
Definition complete (i0 i : nat) : Prop :=
  (i0 <= i)%nat /\ (forall j c, (i0 <= j <= i)%nat -> in_grid dims c -> G j c = G i c) /\
  forall c, in_grid dims c -> exists j rank, (i0 <= j <= i)%nat /\ (rank < size)%nat /\ inr n (k_region (calls rank j)) c.

Definition calls_ok : Prop :=
  (forall rank i, (rank < size)%nat -> (i < num)%nat -> call_ok i (calls rank i)) /\
  (forall i, (i < num)%nat -> k_last (calls root i) = true -> exists i0, complete i0 i).

(** The delivery matches the state of the i-th call. *)
Definition delivers (i : nat) (d : delivery C E) : Prop :=
  dg_box (dl_grid d) = mkBox (zeros dims) dims /\
  (forall c, in_grid dims c -> dg_get t false (dl_grid d) c = Some (G i c)) /\
  g_edge (d_grid (dl_grid d)) = g_edge (d_grid (k_grid (calls root i))) /\
  dl_step d = k_step (calls root i) /\ dl_event d = k_event (calls root i).

(** The calls which have to be delivered among the first [k], in order. *)
Definition due (k : nat) : list nat := filter (fun i => k_last (calls root i)) (seq 0 k).

End Spec.

(** Executions of [n] steps: any interleaving of the nodes' steps. *)
Inductive execution {C E} (t : topology) (correct : bool) (dflt : C) (size root cap num : nat) (calls : nat -> nat -> wcall C E) (dim : nat) : nat -> wstate C E -> Prop :=
| ex_init : execution t correct dflt size root cap num calls dim 0 (w_init dflt dim)
| ex_step : forall n s e s', execution t correct dflt size root cap num calls dim n s -> w_step t correct dflt size root cap num calls s e = Next s' ->
    execution t correct dflt size root cap num calls dim (S n) s'.
