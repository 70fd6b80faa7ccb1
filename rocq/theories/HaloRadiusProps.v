(** Property C245: ghost zones and stencils with a larger radius. *)
From Verif Require Import Base RegionSpec RegionModel RegionRep RegionIterModel RegionStreaks CoordModel CoordSpec RegionOpsModel
  RegionOps HaloSpec PartitionSpec PartitionModel PartitionManagerModel HaloFacts PartitionManagerSpec StripingProps.

(** Cells which a stencil of the given radius reads; the grid isn't periodic. *)
Definition reads (radius : Z) (dim c c' : coord) : Prop :=
  in_grid dim c /\ in_grid dim c' /\ Forall2 (fun x x' => Z.abs (x - x') <= radius) c c'.

(** Two nodes share a grid of 4 x 6 cells. Node 0 has to update a cell which
    depends on one that is neither its own nor in its ghost zone, hence is never
    sent to it. *)
Theorem C245_radius_refuted : exists (part : nat -> option indices) p g c c',
  exact_cover 1 2 part (in_grid [6; 4]) /\ setup_node (Regular [6; 4] [false; false]) part 1 2 0 = Some (p, g) /\
  at_level 1 (pm_own p) 0 c /\ reads 2 [6; 4] c c' /\ ~ at_level 1 (pm_own p) 1 c' /\ (forall v, frag (g_outer g) 1 = Some v -> ~ at_level 1 v 1 c').
Proof.
  exists (striping_region 100 [0; 0] [6; 4] 0 [12; 12]). eexists. eexists. exists [2; 1], [4; 1].
  split; [apply (C12_striping 1 [0; 0] [6; 4] 0 [12; 12] 100); try reflexivity; try (repeat constructor; lia); cbn; lia|].
  split; [vm_compute; reflexivity|]. split; [eexists; split; [reflexivity|split; [reflexivity|vm_compute; reflexivity]]|].
  split; [split; [cbn; lia|split; [cbn; lia|repeat constructor; lia]]|]. split.
  - intros (r & E & _ & H). cbn in E. injection E as <-. vm_compute in H. discriminate.
  - intros v Ev (r & E & _ & H). vm_compute in Ev. injection Ev as <-. cbn in E. injection E as <-. vm_compute in H. discriminate.
Qed.
Print Assumptions C245_radius_refuted.
