(** Specification vocabulary for CUDASoAGrid. *)
From Coq Require Import Permutation.
From Verif Require Import Base CoordModel CudaSoAModel.

(** Threads may run in any order, but each exactly once. *)
Definition any_order (order : coord -> coord -> list (coord * coord)) : Prop := forall g b, Permutation (threads g b) (order g b).

(** Sizes of grids which CUDA can handle with blocks of at most four rows. *)
Definition gpu_sizes (sizes : coord -> option coord) : Prop :=
  forall z y x ext, sizes [z; y; x] = Some ext -> z <= 65535 /\ y <= 262140.
