(** Property C16: CheckerboardingPartition. *)
From Verif Require Import Base ListFacts RegionSpec RegionModel RegionRep RegionIterModel
  CoordModel CoordSpec RegionOpsModel RegionOps CoordFacts RegionHistory RegionHist RegionReach PartitionSpec PartitionModel
  PartitionFacts StripingFacts CheckerFacts.
From Coq Require Import Sorted.

(** For every number of nodes, the Regions of the nodes decompose the
    simulation box; in 3D under the condition that there are not too many
    nodes for the y-extent. [limit] stands for the value of [sqrt]: the result
    does not depend on it. *)
Theorem C16_checkerboarding : forall d limit origin dims nodes fuel,
  length origin = S d -> length dims = S d -> (d = 1 \/ d = 2)%nat -> Forall (fun n => 0 <= n) dims ->
  (1 <= nodes)%nat ->
  (d = 2%nat -> Z.of_nat nodes < (nth 1 dims 0 + 1) * (nth 1 dims 0 + 1)) ->
  prod (removelast dims) <= Z.of_nat fuel ->
  exact_cover d nodes (checker_region fuel limit origin dims nodes) (in_box (mkBox origin dims)).
Proof.
  intros d limit origin dims nodes fuel Ho Hd Hd12 Hp Hn H3 Hf.
  destruct (node_grid_spec (length dims) limit (Z.of_nat nodes)) as (grid & Hg & Hgl & Hgp & HgP & Hgs); [lia|lia|].
  set (get := checker_region fuel limit origin dims nodes).
  set (bx := fun k => checker_box origin dims grid (from_index grid (Z.of_nat k))).
  assert (Hget : forall k, (k < nodes)%nat -> get k = reg_insert_box fuel (reg_empty (S d)) (bx k)).
  { intros k Hk. unfold get, checker_region. rewrite Hg. cbn [obind].
    rewrite logical_coord_spec by (auto; lia). cbn [obind]. now rewrite Hd. }
  assert (Hlc : forall k, (k < nodes)%nat -> in_grid grid (from_index grid (Z.of_nat k))) by (intros; apply from_index_in; auto; lia).
  assert (Hlen : forall k, (k < nodes)%nat -> length (b_origin (bx k)) = S d /\ length (b_dim (bx k)) = S d).
  { intros k Hk. destruct (checker_lengths dims grid origin (from_index grid (Z.of_nat k)) Hgl) as [E1 E2];
      [rewrite from_index_length; lia|lia|]. unfold bx. split; congruence. }
  assert (Hreg : forall k, (k < nodes)%nat -> rows_regular (bx k) /\ prod (removelast (b_dim (bx k))) <= Z.of_nat fuel).
  { intros k Hk. pose proof (checker_extents dims grid origin _ Hgl ltac:(lia) Hp Hgp (Hlc k Hk)) as He.
    fold (bx k) in He. unfold rows_regular. destruct (Hlen k Hk) as [_ Hl].
    destruct Hd12 as [-> | ->].
    - destruct dims as [|n0 [|n1 [|]]]; try discriminate.
      pose proof (He 0%nat ltac:(cbn; lia)) as [E0 _].
      destruct (b_dim (bx k)) as [|e0 [|e1 [|]]]; try discriminate. cbn in *. split; [split; [lia|constructor]|]. lia.
    - destruct dims as [|n0 [|n1 [|n2 [|]]]]; try discriminate.
      pose proof (He 0%nat ltac:(cbn; lia)) as [E0 _]. pose proof (He 1%nat ltac:(cbn; lia)) as [E1 P1].
      destruct (b_dim (bx k)) as [|e0 [|e1 [|e2 [|]]]]; try discriminate.
      destruct grid as [|gz [|gy [|gx [|]]]]; try discriminate.
      assert (Hgy : gy <= n1).
      { specialize (H3 eq_refl). cbn [nth] in H3. cbn [rev app] in Hgs. inversion Hgs as [| |? ? ? Hs1 L1]; subst.
        inversion Hs1 as [| |? ? ? _ L2]; subst. apply Forall_cons_iff' in Hgp. destruct Hgp as [Hz Hgp].
        apply Forall_cons_iff' in Hgp. destruct Hgp as [Hy Hgp]. apply Forall_cons_iff' in Hgp. destruct Hgp as [Hx _].
        cbn [prod] in HgP. assert (gy * gy <= gz * (gy * (gx * 1))).
        { transitivity (gz * gy); [nia|]. apply Z.mul_le_mono_nonneg_l; nia. }
        assert (0 <= n1) by (clear -E1; cbn in E1; lia). nia. }
      cbn [nth removelast prod] in *. specialize (P1 Hgy). split; [split; [lia|repeat constructor; lia]|].
      transitivity (n0 * (n1 * 1)); [|lia]. nia. }
  assert (Hcell : forall k, (k < nodes)%nat ->
     (exists r, get k = Some r /\ reachable d r) /\ (forall c, cells d get k c <-> in_box (bx k) c)).
  { intros k Hk. apply box_cells with fuel; auto; apply Hlen || apply Hreg; auto. }
  split; [|split].
  - intros k Hk. apply Hcell; auto.
  - intros k k' c Hk Hk' H1 H2. apply Hcell in H1, H2; auto.
    assert (E : from_index grid (Z.of_nat k) = from_index grid (Z.of_nat k')).
    { apply (checker_unique dims grid origin c); auto. }
    apply (f_equal (fun c => to_index c grid)) in E. rewrite !to_from in E by (auto; lia). lia.
  - intros c. split.
    + intros Hc. destruct (checker_find dims grid origin c ltac:(lia) Hgl Hp Hgp Hc) as (lc & L1 & L2).
      pose proof (to_index_bound grid Hgp lc L1) as Hb. exists (Z.to_nat (to_index lc grid)). split; [lia|].
      apply Hcell; [lia|]. unfold bx. rewrite Z2Nat.id by lia. now rewrite from_to.
    + intros (k & Hk & Hc). apply Hcell in Hc; auto. apply (checker_sub dims grid origin c (from_index grid (Z.of_nat k))); auto. congruence.
Qed.
Print Assumptions C16_checkerboarding.

Example C16_example :
  node_grid_dim 3 3 12 = Some [3; 2; 2] /\
  (exists r, checker_region 100 3 [1; 1; 1] [4; 5; 6] 12 11 = Some r /\
     reg_count r [4; 5; 6] = Some true /\ reg_count r [3; 3; 4] = Some true /\ reg_count r [2; 3; 4] = Some false) /\ 12 < (5 + 1) * (5 + 1).
Proof. split; [reflexivity|]. split; [|lia]. eexists. split; [vm_compute; reflexivity|]. repeat split; reflexivity. Qed.

Lemma streaks_3d_diverge oz oy ox dz dx fuel : 0 < dz -> box_streaks fuel (mkBox [oz; oy; ox] [dz; 0; dx]) = None.
Proof.
  intros Hdz. unfold box_streaks. cbn [b_origin b_dim box_end_streak box_end box_streak_fin zadd removelast app last].
  assert (H : forall fuel y, oy <= y -> box_run fuel [oz; y; ox] [oz + dz; oy + 0; ox] [oz; oy; ox] [oz + dz; oy + 0; ox + 1] = None).
  { clear fuel. induction fuel as [|f IH]; intros y Hy; cbn [box_run coord_eqb].
    - replace (oz =? oz + dz) with false by lia. reflexivity.
    - replace (oz =? oz + dz) with false by lia. cbn [andb]. cbn [box_next box_carry tl].
      rewrite Z.eqb_refl. cbn [box_carry]. replace (y + 1 =? oy + 0) with false by lia. rewrite IH by lia. reflexivity. }
  rewrite Z.add_0_r in *. rewrite H by lia. reflexivity.
Qed.

(** With more nodes along the y-axis than cells some node's box has a zero
    extent there, and building its Region does not end: 4 nodes on a grid of
    3x1x2 cells. *)
Theorem C56_checkerboarding_3d_refuted : exists origin dims nodes node,
  length origin = 3%nat /\ length dims = 3%nat /\ Forall (fun n => 0 < n) dims /\ (node < nodes)%nat /\
  forall fuel, checker_region fuel 2 origin dims nodes node = None.
Proof.
  exists [0; 0; 0], [2; 1; 3], 4%nat, 0%nat. split; auto. split; auto. split; [repeat constructor; lia|]. split; [lia|].
  intros fuel. unfold checker_region. change (node_grid_dim (length [2; 1; 3]) 2 (Z.of_nat 4)) with (Some [2; 2; 1]).
  cbn [obind]. change (logical_coord [2; 2; 1] (Z.of_nat 0)) with (Some [0; 0; 0]). cbn [obind].
  change (checker_box [0; 0; 0] [2; 1; 3] [2; 2; 1] [0; 0; 0]) with (mkBox [0; 0; 0] [1; 0; 3]).
  unfold reg_insert_box. rewrite streaks_3d_diverge by lia. reflexivity.
Qed.
Print Assumptions C56_checkerboarding_3d_refuted.
