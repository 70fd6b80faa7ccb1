(** Specification vocabulary for domain decompositions. *)
From Verif Require Import Base RegionModel RegionReach.

(** The coordinates of node [k]; [get] is the partition's [getRegion]. *)
Definition cells (d : nat) (get : nat -> option indices) (k : nat) (c : coord) : Prop :=
  exists r, get k = Some r /\ length c = S d /\ reg_count r c = Some true.

(** Every node gets a Region. *)
Definition all_defined (d n : nat) (get : nat -> option indices) : Prop :=
  forall k, (k < n)%nat -> exists r, get k = Some r /\ reachable d r.

(** No coordinate belongs to two nodes. *)
Definition disjoint (d n : nat) (get : nat -> option indices) : Prop :=
  forall k k' c, (k < n)%nat -> (k' < n)%nat -> cells d get k c -> cells d get k' c -> k = k'.

(** The [n] regions decompose the set [P]. *)
Definition exact_cover (d n : nat) (get : nat -> option indices) (P : coord -> Prop) : Prop :=
  all_defined d n get /\ disjoint d n get /\
  forall c, P c <-> exists k, (k < n)%nat /\ cells d get k c.

(** Node [k] has exactly [m] coordinates. *)
Definition cell_count (d : nat) (get : nat -> option indices) (k m : nat) : Prop :=
  exists cs, NoDup cs /\ length cs = m /\ forall c, In c cs <-> cells d get k c.

Fixpoint zsum (l : list Z) : Z := match l with [] => 0 | x :: l' => x + zsum l' end.
