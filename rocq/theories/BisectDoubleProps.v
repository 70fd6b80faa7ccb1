(** C212, C213: RecursiveBisectionPartition in double precision. *)
From Verif Require Import Base ListFacts RegionSpec RegionModel RegionRep RegionIterModel RegionFlat
  CoordModel CoordSpec RegionOpsModel RegionOps CoordFacts RegionHistory RegionHist RegionReach PartitionSpec PartitionModel
  PartitionFacts StripingFacts CheckerFacts BisectionFacts BisectionProps BisectDoubleModel BisectDoubleSpec BisectDoubleFacts BisectRangeFacts.

(** The cut is within the box and at most a bit more than half a cell from the
    exact position, for all weights which are 64 bit integers. *)
Theorem C212_cuts : forall num den n, 0 <= num <= den -> 0 < den <= 2 ^ 64 -> 0 <= n <= 2 ^ 31 ->
  0 <= round_double num den n <= n /\ nearest_cut num den n (round_double num den n).
Proof. intros num den n H1 H2 H3. split; [now apply cut_bounds|now apply cut_near]. Qed.
Print Assumptions C212_cuts.

(** It's not always the position next to the exact one, with halves rounded
    up: 7/10 of 45 cells. *)
Theorem C213_exact_cut_refuted : exists num den n, 0 <= num <= den /\ 0 < den <= 2 ^ 64 /\ 0 <= n <= 2 ^ 31 /\
  round_double num den n <> round_exact num den n.
Proof. exists 7, 10, 45. repeat split; try lia. vm_compute. discriminate. Qed.
Print Assumptions C213_exact_cut_refuted.

(** Partitions in 1D and 2D, for a rounding that is sane for the sizes of the
    domain *)
Theorem C212_bisection_upto : forall W N rnd d origin dims dimw weights fuel, (d <= 1)%nat ->
  sane_upto W N rnd -> length origin = S d -> length dims = S d -> Forall (fun n => 0 < n <= N) dims ->
  weights <> [] -> Forall (fun x => 0 < x) weights -> zsum weights <= W -> prod (removelast dims) <= Z.of_nat fuel ->
  exact_cover d (length weights) (bisection_region rnd fuel origin dims dimw weights) (in_box (mkBox origin dims)).
Proof.
  intros W N rnd d origin dims dimw weights fuel Hd1 Hs Ho Hd Hp Hne Hw HW Hf.
  assert (Hp' : Forall (fun n => 0 < n) dims) by (eapply Forall_impl; [|exact Hp]; cbn; lia).
  assert (Hn : dims <> []) by (intros ->; discriminate).
  pose proof (C17_bisection (guarded W N rnd) d origin dims dimw weights fuel Hd1 (guarded_sane W N rnd Hs) Ho Hd Hp' Hne Hw Hf) as H.
  assert (E : forall k, bisection_region (guarded W N rnd) fuel origin dims dimw weights k = bisection_region rnd fuel origin dims dimw weights k).
  { intros k. unfold bisection_region. now rewrite bisection_guarded. }
  destruct H as (H1 & H2 & H3). unfold cells in *. split; [|split].
  - intros k Hk. destruct (H1 k Hk) as (r & K1 & K2). exists r. rewrite <- E. now split.
  - intros k k' c Hk Hk' (r & K1 & K2) (r' & K3 & K4). apply (H2 k k' c Hk Hk'); [exists r|exists r']; rewrite E; now split.
  - intros c. rewrite H3. split; intros (k & Hk & r & K1 & K2); exists k; (split; [exact Hk|]); exists r; [rewrite <- E|rewrite E]; now split.
Qed.
Print Assumptions C212_bisection_upto.

(** The boxes of the nodes in double precision: any number of dimensions, ints
    as extents and 64 bit weights *)
Theorem C212_boxes : forall d origin dims dimw weights,
  length origin = S d -> length dims = S d -> Forall (fun n => 0 < n <= 2 ^ 31) dims ->
  weights <> [] -> Forall (fun x => 0 < x) weights -> zsum weights <= 2 ^ 64 ->
  let bx := bisection_box round_double origin dims dimw weights in
  let n := length weights in
  (forall k, (k < n)%nat -> exists b, bx k = Some b /\ length (b_origin b) = S d /\ length (b_dim b) = S d /\
     Forall (fun n => 0 <= n) (b_dim b) /\ Forall2 Z.le (b_dim b) dims) /\
  (forall k k' b b' c, (k < n)%nat -> (k' < n)%nat -> bx k = Some b -> bx k' = Some b' -> in_box b c -> in_box b' c -> k = k') /\
  (forall c, in_box (mkBox origin dims) c <-> exists k b, (k < n)%nat /\ bx k = Some b /\ in_box b c).
Proof.
  intros d origin dims dimw weights Ho Hd Hp Hne Hw HW bx n.
  assert (Hp' : Forall (fun n => 0 < n) dims) by (eapply Forall_impl; [|exact Hp]; cbn; lia).
  assert (Hn : dims <> []) by (intros ->; discriminate).
  assert (Hs : sane_upto (2 ^ 64) (2 ^ 31) round_double) by (intros a b m H1 H2 H3; now apply C212_cuts).
  destruct (C17_bisection_boxes (guarded (2 ^ 64) (2 ^ 31) round_double) d origin dims dimw weights (guarded_sane _ _ _ Hs) Ho Hd Hp' Hne Hw) as (H1 & H2 & H3).
  assert (E : forall k, bisection_box (guarded (2 ^ 64) (2 ^ 31) round_double) origin dims dimw weights k = bx k).
  { intros k. now apply bisection_guarded. }
  split; [|split].
  - intros k Hk. rewrite <- E. now apply H1.
  - intros k k' b b' c Hk Hk'. rewrite <- !E. now apply H2.
  - intros c. rewrite H3. split; intros (k & b & Hk & K); exists k, b; [rewrite <- E|rewrite E]; now split.
Qed.
Print Assumptions C212_boxes.

(** In double precision, 1D and 2D *)
Theorem C212_bisection : forall d origin dims dimw weights fuel, (d <= 1)%nat ->
  length origin = S d -> length dims = S d -> Forall (fun n => 0 < n <= 2 ^ 31) dims ->
  weights <> [] -> Forall (fun x => 0 < x) weights -> zsum weights <= 2 ^ 64 -> prod (removelast dims) <= Z.of_nat fuel ->
  exact_cover d (length weights) (bisection_region round_double fuel origin dims dimw weights) (in_box (mkBox origin dims)).
Proof.
  intros d origin dims dimw weights fuel Hd1 Ho Hd Hp Hne Hw HW Hf.
  apply C212_bisection_upto with (2 ^ 64) (2 ^ 31); auto. intros a b m H1 H2 H3. now apply C212_cuts.
Qed.
Print Assumptions C212_bisection.

(** 70 and 30 of 100 weights, 45 cells: the cut is at 31, not at 32. *)
Example C212_example :
  bisection_box round_double [0; 0] [3; 45] [1; 1] [70; 30] 1 = Some (mkBox [0; 31] [3; 14]) /\
  bisection_box round_exact [0; 0] [3; 45] [1; 1] [70; 30] 1 = Some (mkBox [0; 32] [3; 13]) /\
  round_double (2 ^ 63 + 1) (2 ^ 64 - 1) (2 ^ 31) = 2 ^ 30.
Proof. split; [|split]; vm_compute; reflexivity. Qed.
