(** Property C17: RecursiveBisectionPartition. *)
From Verif Require Import Base ListFacts RegionSpec RegionModel RegionRep RegionIterModel RegionFlat
  CoordModel CoordSpec RegionOpsModel RegionOps CoordFacts RegionHistory RegionHist RegionReach PartitionSpec PartitionModel
  PartitionFacts StripingFacts CheckerFacts CheckerProps BisectionFacts.

(** For positive weights, in any number of dimensions and for any rounding of
    the cut positions to values within the box: computing the node boxes
    ends, the boxes are pairwise disjoint and cover the simulation box. *)
Theorem C17_bisection_boxes : forall rnd d origin dims dimw weights,
  sane_rounding rnd -> length origin = S d -> length dims = S d -> Forall (fun n => 0 < n) dims ->
  weights <> [] -> Forall (fun x => 0 < x) weights ->
  let bx := bisection_box rnd origin dims dimw weights in
  let n := length weights in
  (forall k, (k < n)%nat -> exists b, bx k = Some b /\ length (b_origin b) = S d /\ length (b_dim b) = S d /\
     Forall (fun n => 0 <= n) (b_dim b) /\ Forall2 Z.le (b_dim b) dims) /\
  (forall k k' b b' c, (k < n)%nat -> (k' < n)%nat -> bx k = Some b -> bx k' = Some b' -> in_box b c -> in_box b' c -> k = k') /\
  (forall c, in_box (mkBox origin dims) c <-> exists k b, (k < n)%nat /\ bx k = Some b /\ in_box b c).
Proof.
  intros rnd d origin dims dimw weights Hrnd Ho Hd Hp Hne Hw bx n. unfold bx, bisection_box.
  pose proof (prod_pos dims Hp) as HP. replace (prod dims =? 0) with false by lia.
  assert (Hn : (0 < n)%nat) by (unfold n; destruct weights; [congruence|cbn; lia]).
  destruct (search_spec rnd Hrnd dimw (start_offsets 0 weights) (increasing_offsets weights 0 Hw) d n 0 n (mkBox origin dims))
    as (H1 & H2 & H3); auto; try lia.
  { rewrite offsets_length. unfold n. lia. }
  { unfold good_box. cbn [b_origin b_dim]. repeat split; auto. eapply Forall_impl; [|exact Hp]. cbn. intros. lia. }
  split; [|split].
  - intros k Hk. destruct (H1 k ltac:(lia)) as (b & E & (G1 & G2 & G3) & L). exists b. repeat split; auto.
  - intros k k' b b' c Hk Hk'. apply H2; lia.
  - intros c. rewrite H3. split; intros (k & b & Hk & H); exists k, b; (split; [lia|auto]).
Qed.
Print Assumptions C17_bisection_boxes.

(** The Regions of the nodes, provided that no node's box has a zero extent
    along the middle axis. *)
Theorem C17_bisection_regions : forall rnd d origin dims dimw weights fuel,
  sane_rounding rnd -> length origin = S d -> length dims = S d -> Forall (fun n => 0 < n) dims ->
  weights <> [] -> Forall (fun x => 0 < x) weights ->
  (forall k b, bisection_box rnd origin dims dimw weights k = Some b -> (k < length weights)%nat -> 
     rows_regular b /\ prod (removelast (b_dim b)) <= Z.of_nat fuel) ->
  exact_cover d (length weights) (bisection_region rnd fuel origin dims dimw weights) (in_box (mkBox origin dims)).
Proof.
  intros rnd d origin dims dimw weights fuel Hrnd Ho Hd Hp Hne Hw Hreg.
  destruct (C17_bisection_boxes rnd d origin dims dimw weights Hrnd Ho Hd Hp Hne Hw) as (H1 & H2 & H3).
  set (get := bisection_region rnd fuel origin dims dimw weights).
  assert (Hcell : forall k, (k < length weights)%nat -> exists b, bisection_box rnd origin dims dimw weights k = Some b /\
     (exists r, get k = Some r /\ reachable d r) /\ (forall c, cells d get k c <-> in_box b c)).
  { intros k Hk. destruct (H1 k Hk) as (b & E & L1 & L2 & _). exists b. split; auto. destruct (Hreg k b E Hk) as [R1 R2].
    apply box_cells with fuel; auto. unfold get, bisection_region. rewrite E. cbn [obind]. now rewrite Hd. }
  split; [|split].
  - intros k Hk. destruct (Hcell k Hk) as (b & _ & H & _). exact H.
  - intros k k' c Hk Hk' C1 C2. destruct (Hcell k Hk) as (b & E & _ & Hb). destruct (Hcell k' Hk') as (b' & E' & _ & Hb').
    apply Hb in C1. apply Hb' in C2. eapply H2; eauto.
  - intros c. rewrite H3. split.
    + intros (k & b & Hk & E & Hc). exists k. split; auto. destruct (Hcell k Hk) as (b' & E' & _ & Hb).
      apply Hb. congruence.
    + intros (k & Hk & Hc). destruct (Hcell k Hk) as (b & E & _ & Hb). exists k, b. split; auto. split; auto. now apply Hb.
Qed.
Print Assumptions C17_bisection_regions.

(** In 1D and 2D the condition always holds. *)
Theorem C17_bisection : forall rnd d origin dims dimw weights fuel, (d <= 1)%nat ->
  sane_rounding rnd -> length origin = S d -> length dims = S d -> Forall (fun n => 0 < n) dims ->
  weights <> [] -> Forall (fun x => 0 < x) weights -> prod (removelast dims) <= Z.of_nat fuel ->
  exact_cover d (length weights) (bisection_region rnd fuel origin dims dimw weights) (in_box (mkBox origin dims)).
Proof.
  intros rnd d origin dims dimw weights fuel Hd1 Hrnd Ho Hd Hp Hne Hw Hf. apply C17_bisection_regions; auto.
  intros k b E Hk.
  destruct (C17_bisection_boxes rnd d origin dims dimw weights Hrnd Ho Hd Hp Hne Hw) as (H1 & _ & _).
  destruct (H1 k Hk) as (b' & E' & L1 & L2 & P & LE). assert (b' = b) by congruence. subst b'. clear E'.
  unfold rows_regular. destruct (b_dim b) as [|m [|m1 [|]]]; cbn in L2; try lia.
  - destruct dims as [|n [|]]; cbn in Hd; try lia. split; auto.
  - destruct dims as [|n [|n1 [|]]]; cbn in Hd; try lia. apply Forall_cons_iff' in P. split; [split; [lia|constructor]|].
    inversion LE; subst. cbn in *. lia.
Qed.
Print Assumptions C17_bisection.

Example C17_example : sane_rounding round_exact /\
  bisection_box round_exact [0; 0] [7; 9] [1; 1] [10; 20; 30; 3] 2 = Some (mkBox [0; 4] [6; 5]).
Proof. split; [apply round_exact_sane|]. vm_compute. reflexivity. Qed.

(** A node of weight zero is enough for the recursion not to end; on return
    from [approxMiddle] the range of nodes is unchanged. *)
Theorem C57_bisection_zero_weight_refuted : exists weights b, Forall (fun x => 0 <= x) weights /\ 0 < zsum weights /\
  (forall n, In n (b_dim b) -> 0 < n) /\ prod (b_dim b) = zsum weights /\
  forall node fuel, (node < length weights)%nat -> search_cuboid round_exact fuel [1; 1] (start_offsets 0 weights) 0 (length weights) node b = None.
Proof.
  exists [0; 10], (mkBox [0; 0] [2; 5]). split; [repeat constructor; lia|]. split; [cbn; lia|]. split; [cbn; lia|].
  split; [reflexivity|]. intros node fuel Hn. cbn [length] in *.
  change (start_offsets 0 [0; 10]) with [0; 0; 10].
  induction fuel as [|fuel IH]; [reflexivity|]. cbn [search_cuboid Nat.sub Nat.eqb].
  change (approx_middle [0; 0; 10] 0 2) with (Some 2%nat). cbn [obind nth_error].
  change (10 - 0 =? 0) with false. cbn [obind].
  change (split_box round_exact [1; 1] (mkBox [0; 0] [2; 5]) (10 - 0) (10 - 0)) with (mkBox [0; 0] [2; 5], mkBox [0; 5] [2; 0]).
  destruct node as [|[|node]]; [| |lia]; exact IH.
Qed.
Print Assumptions C57_bisection_zero_weight_refuted.

(** In 3D a node may be assigned a box of zero extent along y whose insertion
    does not end although the weights are positive and add up to the volume:
    1x2x2 cells, weights 3 and 1. *)
Theorem C58_bisection_3d_refuted : exists origin dims weights node,
  length origin = 3%nat /\ length dims = 3%nat /\ Forall (fun n => 0 < n) dims /\
  Forall (fun x => 0 < x) weights /\ zsum weights = prod dims /\ (node < length weights)%nat /\
  forall fuel, bisection_region round_exact fuel origin dims [1; 1; 1] weights node = None.
Proof.
  exists [0; 0; 0], [2; 2; 1], [3; 1], 1%nat. repeat split; try (repeat constructor; lia). intros fuel.
  unfold bisection_region.
  change (bisection_box round_exact [0; 0; 0] [2; 2; 1] [1; 1; 1] [3; 1] 1) with (Some (mkBox [0; 2; 0] [2; 0; 1])).
  cbn [obind]. unfold reg_insert_box. rewrite streaks_3d_diverge by lia. reflexivity.
Qed.
Print Assumptions C58_bisection_3d_refuted.
