(** How the distributed simulators set up their domain decompositions.
    Definitions only.

    Sources: loadbalancer/loadbalancer.cpp, parallelization/hiparsimulator.h
    (initSimulation), parallelization/hpxsimulator.h,
    parallelization/hpxsimulator.cpp.

    Simplification: [size_t] is unbounded. *)
From Verif Require Import Base RegionModel RegionOpsModel PartitionModel SfcModel HIndexingModel ParamModel CoordModel.

(** ** Initial weights with any arithmetic *)

Section Weights.
Context {N : Type} (A : arith N).

(** [sum] (misc/stdcontaineroverloads.h:69-74) *)
Definition speed_sum (l : list N) : N := fold_left (a_add A) l (a_ofZ A 0).

(** The loop of [initialWeights] (loadbalancer.cpp:18-25); [None]: conversion of
    a number that isn't finite. *)
Fixpoint weights_loop (items : Z) (total : N) (last_pos : Z) (partial : N) (speeds : list N) : option (list Z) :=
  match speeds with
  | [] => Some []
  | [_] => Some [items - last_pos]
  | s :: speeds' =>
      let partial' := a_add A partial s in
      obind (a_trunc A (a_div A (a_mul A (a_ofZ A items) partial') total)) (fun next_pos =>
      option_map (cons (next_pos - last_pos)) (weights_loop items total next_pos partial' speeds'))
  end.

(** [LoadBalancer::initialWeights] (loadbalancer.cpp:6-28); no speeds: exception *)
Definition start_weights (items : Z) (speeds : list N) : option (list Z) :=
  match speeds with
  | [] => None
  | _ => weights_loop items (speed_sum speeds) 0 (a_ofZ A 0) speeds
  end.

(** ** HpxSimulator: update groups of all localities *)

(** [correctedUpdateGroupSpeeds] (hpxsimulator.cpp:77-81): the locality's speeds times
    the model's speed guide. *)
Definition corrected_speeds (guide : N) (speeds : list N) : list N := map (fun i => a_mul A i guide) speeds.

(** The loop over all localities (hpxsimulator.cpp:98-109). *)
Fixpoint gather_loop (vecs : list (list N)) (indices : list nat) (flat : list N) (index_sum : nat) : list nat * list N :=
  match vecs with
  | [] => (indices ++ [index_sum], flat)
  | vec :: vecs' => gather_loop vecs' (indices ++ [index_sum]) (flat ++ vec) (index_sum + length vec)
  end.

(** [gatherAndBroadcastLocalityIndices] (hpxsimulator.cpp:67-122): all localities
    get the same indices and speeds. [guides] and [speeds] are those of all
    localities; broadcasts return results in the order of the localities. *)
Definition gather_indices (locs : list (N * list N)) : list nat * list N :=
  gather_loop (map (fun '(g, s) => corrected_speeds g s) locs) [] [] 0.

(** The update groups which locality [rank] creates (hpxsimulator.h:257-260);
    [None]: read beyond the end. *)
Definition groups_of (indices : list nat) (rank : nat) : option (list nat) :=
  match nth_error indices rank, nth_error indices (rank + 1) with
  | Some a, Some b => Some (seq a (b - a))
  | _, _ => None
  end.

End Weights.

(** ** Partitions *)

(** PARTITION with its parameters: [rnd] and [dimw] as in [PartitionModel],
    [limit] stands for the value of [sqrt]. *)
Inductive partition_kind :=
  | Striping | ZCurve | Hilbert | HIndexing
  | Bisection (rnd : Z -> Z -> Z -> Z) (dimw : coord)
  | Checkerboarding (limit : Z).

(** The partition constructed in [initSimulation] (hiparsimulator.h:214-220,
    hpxsimulator.h:244-250), with an offset of 0. *)
Definition make_partition (kind : partition_kind) (fuel : nat) (origin dims : coord) (weights : list Z) : nat -> option indices :=
  match kind with
  | Striping => striping_region fuel origin dims 0 weights
  | ZCurve => zcurve_region fuel origin dims 0 weights
  | Hilbert => hilbert_region fuel origin dims 0 weights
  | HIndexing => hindexing_region fuel origin dims 0 weights
  | Bisection rnd dimw => bisection_region rnd fuel origin dims dimw weights
  | Checkerboarding limit => checker_region fuel limit origin dims (length weights)
  end.

(** [initSimulation] (hiparsimulator.h:198-220): the decomposition used by
    HiParSimulator; [speeds] are the ranks' speed guides, gathered from all. *)
Definition hipar_partition {N} (A : arith N) (kind : partition_kind) (fuel : nat) (origin dims : coord) (speeds : list N)
    : option (nat -> option indices) :=
  option_map (make_partition kind fuel origin dims) (start_weights A (prod dims) speeds).

(** [initSimulation] (hpxsimulator.h:230-263) of HpxSimulator: the indices of the
    localities' update groups and the decomposition. *)
Definition hpx_partition {N} (A : arith N) (kind : partition_kind) (fuel : nat) (origin dims : coord) (locs : list (N * list N))
    : option (list nat * (nat -> option indices)) :=
  let '(indices, speeds) := gather_indices A locs in
  option_map (fun weights => (indices, make_partition kind fuel origin dims weights)) (start_weights A (prod dims) speeds).
