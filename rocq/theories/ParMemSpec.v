(** Specification vocabulary for ParallelMemoryWriter. *)
From Verif Require Import Base RegionSpec RegionModel RegionRep HaloSpec CoordModel CoordSpec GridModel GridSpec GridReach CollectModel ParMemModel.

Section Spec.
Context {C E : Type}.
Variable t : topology.
Variable correct : bool.
Variable n : nat.
Variable dims : coord.
Variable size num : nat.
Variable calls : nat -> nat -> wcall C E.
Variable G : Z -> coord -> C.            (* the simulation's state at a given step *)
Variable Edge : Z -> C.

(** Each call passes a part of the simulation's state. *)
Definition report_ok (k : wcall C E) : Prop :=
  k_dims k = dims /\ rvalid n (k_region k) /\ (forall c, inr n (k_region k) c -> in_grid dims c) /\ g_edge (d_grid (k_grid k)) = Edge (k_step k) /\
  exists b topo, setup_ok t correct b topo /\ dg_reach t correct b topo (k_grid k) /\
    forall c, inr n (k_region k) c -> in_box b c /\ dg_get t correct (k_grid k) c = Some (G (k_step k) c).

(** All nodes report the same steps in the same order, different nodes
    different cells. *)
Definition reports_ok (finished : E -> bool) (period : Z) : Prop :=
  (forall q i, (q < size)%nat -> (i < num)%nat -> report_ok (calls q i) /\ pm_skips finished period (calls q i) = false) /\
  (forall q r i, (q < size)%nat -> (r < size)%nat -> (i < num)%nat -> k_step (calls q i) = k_step (calls r i)) /\
  (forall q r i c, (q < size)%nat -> (r < size)%nat -> (i < num)%nat -> q <> r -> inr n (k_region (calls q i)) c -> ~ inr n (k_region (calls r i)) c).

(** Executions of [m] steps: any interleaving of the nodes' steps. *)
Inductive pm_execution (dflt : C) (cap : nat) (eager : bool) : nat -> pstate C -> Prop :=
| pe_init : pm_execution dflt cap eager 0 (pm_init dflt (S n))
| pe_step m s e s' : pm_execution dflt cap eager m s -> pm_step t dflt size cap num eager calls s e = Next s' -> pm_execution dflt cap eager (S m) s'.
End Spec.
