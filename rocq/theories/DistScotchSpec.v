(** Distributed partitioning: what should come out of it. *)
From Verif Require Import Base RegionSpec RegionModel RegionRep RegionReach DistScotchModel.

(** Slices cut [0, cells) into consecutive intervals. *)
Definition cut (cells : Z) (num : nat) (bound : Z -> Z) : Prop :=
  bound 0 = 0 /\ bound (Z.of_nat num) = cells /\ forall r, 0 <= r < Z.of_nat num -> bound r <= bound (r + 1).

(** States the ranks may get to, whatever MPI does. *)
Inductive xreach (num : nat) (partials : nat -> list indices) : xstate -> Prop :=
| xreach_init : xreach num partials (xinit num partials)
| xreach_step s e s' : xreach num partials s -> xstep partials s e = Next s' -> xreach num partials s'.

(** Steps MPI has to make sooner or later, even without buffers. *)
Definition unavoidable (e : xevent) : Prop := match e with EBuffer _ => False | _ => True end.

Definition xdone (num : nat) (s : xstate) : Prop := forall r, (r < num)%nat -> x_todo s r = [].

(** Remaining operations *)
Definition remaining (num : nat) (s : xstate) : nat := list_sum (map (fun r => length (x_todo s r)) (seq 0 num)).

(** Fragments are regions, one per part. *)
Definition fragments (num : nat) (partials : nat -> list indices) : Prop :=
  forall r, (r < num)%nat -> length (partials r) = num /\ Forall (reachable 0) (partials r).

(** [r] consists of the fragments [k] of all ranks. *)
Definition assembled (num : nat) (partials : nat -> list indices) (k : nat) (r : indices) : Prop :=
  reachable 0 r /\ forall c, length c = 1%nat -> (rin r c <-> exists i f, (i < num)%nat /\ nth_error (partials i) k = Some f /\ rin f c).
