(** Regions which a program can build. *)
From Verif Require Import Base RegionSpec RegionModel RegionRep RegionIterModel RegionStreaks
  CoordModel CoordSpec RegionOpsModel RegionOps CoordFacts RegionHistory RegionHist
  TopologyFacts RegionExpand RegionWrap RegionAdj.

(** The default constructor, the mutations, the set operations and the
    expansions. *)
Inductive reachable (d : nat) : indices -> Prop :=
| reach_new : reachable d (reg_empty (S d))
| reach_rop r op fuel r' : reachable d r -> rop_ok (S d) op -> (rop_fuel op <= fuel)%nat ->
    run_rop fuel r op = Some r' -> reachable d r'
| reach_union a b r : reachable d a -> reachable d b -> reg_union a b = Some r -> reachable d r
| reach_union_assign a b r : reachable d a -> reachable d b -> reg_union_assign a b = Some r -> reachable d r
| reach_isect a b r : reachable d a -> reachable d b -> reg_isect a b = Some r -> reachable d r
| reach_diff a b r : reachable d a -> reachable d b -> reg_diff a b = Some r -> reachable d r
| reach_expand a radii r : reachable d a -> length radii = S d -> Forall (fun k => 0 <= k) radii ->
    reg_expand_radii a radii = Some r -> reachable d r
| reach_expand_topology a w dim t r : reachable d a ->
    length dim = S d -> length t = S d -> Forall (fun n => 0 < n) dim -> 0 <= w -> Forall (fun n => w <= n) dim ->
    (forall c, length c = S d -> reg_count a c = Some true -> in_grid dim c) ->
    reg_expand_topology a w dim t = Some r -> reachable d r
| reach_expand_adjacency a w adj r : d = O -> reachable d a -> reg_expand_adjacency a w adj = Some r -> reachable d r.

Lemma reachable_valid d r : reachable d r -> rvalid d r.
Proof.
  induction 1 as [|r op fuel r' _ IH Hop Hf E|a b r _ IHa _ IHb E|a b r _ IHa _ IHb E|a b r _ IHa _ IHb E
    |a b r _ IHa _ IHb E|a radii r _ IH Hl Hp E|a w dim t r _ IH H1 H2 H3 H4 H5 H6 E|a w adj r Hd _ IH E].
  - apply rvalid_empty.
  - destruct (run_rop_valid d r op fuel IH Hop Hf) as (r2 & E2 & H & _). congruence.
  - destruct (reg_union_valid d a b IHa IHb) as (r2 & E2 & H & _). congruence.
  - destruct (reg_union_assign_valid d a b IHa IHb) as (r2 & E2 & H & _). congruence.
  - destruct (reg_isect_valid d a b IHa IHb) as (r2 & E2 & H & _). congruence.
  - destruct (reg_diff_valid d a b IHa IHb) as (r2 & E2 & H & _). congruence.
  - destruct (expand_valid d a radii IH Hl Hp) as (r2 & E2 & H & _). congruence.
  - destruct (expand_topology_valid d a w dim t IH H1 H2 H3 H4 H5 H6) as (r2 & E2 & H & _). congruence.
  - subst d. destruct (expand_adjacency_valid adj a w IH) as (r2 & E2 & H & _). congruence.
Qed.
