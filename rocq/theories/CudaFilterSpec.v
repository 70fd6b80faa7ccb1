(** What copies by filters have to do; separate from the model's helpers. *)
From Coq Require Import Permutation.
From Verif Require Import Base RegionSpec GridModel CudaFilterModel.

(** Threads may run in any order, but each has to run once. *)
Definition any_order1 (order : Z -> list (Z * Z)) : Prop := forall n, Permutation (threads1 n) (order n).

(** Element [j] of cell [i] is at [i * A + j] in an array of structures [aos],
    and at [j * stride + i] in a structure of arrays [soa]. *)
Definition same_elements {V} (A num stride : Z) (aos soa : list V) : Prop :=
  forall i j, 0 <= i < num -> 0 <= j < A -> vec_get aos (i * A + j) = vec_get soa (j * stride + i).
