(** Properties C06 (expand) and C07 (expandWithTopology,
    expandWithAdjacency). *)
From Verif Require Import Base ListFacts RegionSpec RegionModel RegionRep RegionIterModel RegionStreaks
  CoordModel CoordSpec RegionOpsModel RegionOps CoordFacts RegionReach TopologyFacts RegionExpand RegionWrap RegionAdj.

(** ** C06 *)

(** [expand(radii)] contains exactly the coordinates which differ from a
    contained one by at most the respective radius along each axis. *)
Theorem C06_expand_radii : forall d r radii,
  reachable d r -> length radii = S d -> Forall (fun k => 0 <= k) radii ->
  exists r', reg_expand_radii r radii = Some r' /\ reachable d r' /\
    forall c, length c = S d ->
      (reg_count r' c = Some true <->
       exists c0, length c0 = S d /\ reg_count r c0 = Some true /\ near radii c c0).
Proof.
  intros d r radii Hr Hl Hp. pose proof (reachable_valid d r Hr) as Hv.
  destruct (expand_valid d r radii Hv Hl Hp) as (r' & E & V & H). exists r'. split; [exact E|].
  split; [eapply reach_expand; eauto|exact H].
Qed.
Print Assumptions C06_expand_radii.

(** [expand(w)]. *)
Theorem C06_expand : forall d r w, reachable d r -> 0 <= w ->
  exists r', reg_expand r w = Some r' /\
    forall c, length c = S d ->
      (reg_count r' c = Some true <->
       exists c0, length c0 = S d /\ reg_count r c0 = Some true /\ Forall2 (fun x x0 => Z.abs (x - x0) <= w) c c0).
Proof.
  intros d r w Hr Hw. unfold reg_expand. pose proof (reachable_valid d r Hr) as Hv. rewrite (valid_length d r Hv).
  destruct (C06_expand_radii d r (diagonal (S d) w) Hr) as (r' & E & _ & H).
  { unfold diagonal. apply repeat_length. }
  { unfold diagonal. apply Forall_forall. intros x Hx. apply repeat_spec in Hx. lia. }
  exists r'. split; [exact E|]. intros c Hc. rewrite H by auto.
  assert (Hn : forall n c c0, length c = n -> length c0 = n ->
     (near (diagonal n w) c c0 <-> Forall2 (fun x x0 => Z.abs (x - x0) <= w) c c0)).
  { clear. unfold diagonal. induction n as [|n IH]; intros [|x c] [|y c0] H1 H2; try discriminate; cbn [repeat near].
    - split; auto.
    - rewrite IH by (cbn in *; lia). split; [intros [Ha Hb]; constructor; auto; lia|].
      intros Hf. inversion Hf; subst. split; auto. lia. }
  split; intros (c0 & H1 & H2 & H3); exists c0; (split; [auto|]); (split; [auto|]); apply (Hn (S d)); auto.
Qed.
Print Assumptions C06_expand.

Example C06_example :
  let r := insert_all (reg_empty 2) [mkStreak [3] 2 4; mkStreak [9] 0 1] in
  reachable 1 r /\
  option_map reg_streaks (reg_expand r 2) = Some (Some
    [mkStreak [1] 0 6; mkStreak [2] 0 6; mkStreak [3] 0 6; mkStreak [4] 0 6; mkStreak [5] 0 6;
     mkStreak [7] (-2) 3; mkStreak [8] (-2) 3; mkStreak [9] (-2) 3; mkStreak [10] (-2) 3; mkStreak [11] (-2) 3]) /\
  option_map reg_streaks (reg_expand_radii r [1; 0]) = Some (Some
    [mkStreak [2] 2 4; mkStreak [3] 2 4; mkStreak [4] 2 4; mkStreak [8] 0 1; mkStreak [9] 0 1; mkStreak [10] 0 1]).
Proof.
  cbv zeta. split; [|vm_compute; auto].
  eapply reach_rop with (op := RegionHistory.InsStreak (mkStreak [9] 0 1)) (fuel := O); [|reflexivity|auto|reflexivity].
  eapply reach_rop with (op := RegionHistory.InsStreak (mkStreak [3] 2 4)) (fuel := O); [|reflexivity|auto|reflexivity].
  constructor.
Qed.

(** ** C07 *)

(** Expansion in a grid of dimensions [dim], up to [w] not larger than any
    of them: wrapping axes wrap, other axes clip. *)
Theorem C07_expand_topology : forall d r w dim t,
  reachable d r -> length dim = S d -> length t = S d -> Forall (fun n => 0 < n) dim ->
  0 <= w -> Forall (fun n => w <= n) dim ->
  (forall c, length c = S d -> reg_count r c = Some true -> in_grid dim c) ->
  exists r', reg_expand_topology r w dim t = Some r' /\
    (forall c, length c = S d ->
      (reg_count r' c = Some true <->
       exists c0 c1, length c0 = S d /\ reg_count r c0 = Some true /\
         near (diagonal (S d) w) c1 c0 /\ wraps_to t dim c1 c)) /\
    (forall c, length c = S d -> reg_count r' c = Some true -> in_grid dim c).
Proof.
  intros d r w dim t Hr Hd Ht Hp Hw Hwd Hin.
  destruct (expand_topology_valid d r w dim t (reachable_valid d r Hr) Hd Ht Hp Hw Hwd Hin) as (r' & E & V & H).
  exists r'. split; [exact E|]. split; [exact H|]. intros c Hc Hc'. apply H in Hc'; auto.
  destruct Hc' as (c0 & c1 & _ & _ & _ & Hwr). eapply wraps_to_grid; eauto.
Qed.
Print Assumptions C07_expand_topology.

(** A torus in x, clipped in y. *)
Example C07_example :
  let r := insert_all (reg_empty 2) [mkStreak [0] 0 2; mkStreak [2] 4 5] in
  (forall c, length c = 2%nat -> reg_count r c = Some true -> in_grid [3; 6] c) /\
  option_map reg_streaks (reg_expand_topology r 1 [3; 6] [false; true]) = Some (Some
    [mkStreak [0] 0 3; mkStreak [0] 5 6; mkStreak [1] 0 6; mkStreak [2] 3 6]).
Proof.
  cbv zeta. split; [|vm_compute; auto].
  intros c Hc H.
  assert (V : rvalid 1 (insert_all (reg_empty 2) [mkStreak [0] 0 2; mkStreak [2] 4 5])).
  { eapply insert_all_valid; [apply rvalid_empty|repeat constructor]. }
  destruct (insert_all_valid 1 [mkStreak [0] 0 2; mkStreak [2] 4 5] (reg_empty 2) (rvalid_empty 1)) as [_ Hi]; [repeat constructor|].
  apply Hi in H; auto. destruct H as [H|(s & [<-|[<-|[]]] & (x & -> & Hx))]; [exfalso; eapply (rin_empty 1); eauto| |];
    cbn in *; unfold in_grid; cbn; lia.
Qed.

(** Beyond that bound the result is wrong: in a ring of 3 cells, a width of 4
    yields coordinates outside of the grid. *)
Theorem C07_wide_expansion_refuted :
  exists r w n r' c, reachable 0 r /\ (forall c, length c = 1%nat -> reg_count r c = Some true -> in_grid [n] c) /\
    0 <= w /\ reg_expand_topology r w [n] (torus 1) = Some r' /\ reg_count r' c = Some true /\ ~ in_grid [n] c.
Proof.
  exists (reg_insert (reg_empty 1) (mkStreak [] 0 1)), 4, 3.
  eexists. exists [5]. split.
  { eapply reach_rop with (op := RegionHistory.InsStreak (mkStreak [] 0 1)) (fuel := O); [constructor|reflexivity|auto|reflexivity]. }
  split.
  { intros c Hc H. destruct (insert_valid 0 (reg_empty 1) (mkStreak [] 0 1) (rvalid_empty 0) eq_refl) as [_ Hi].
    apply Hi in H; auto. destruct H as [H|(x & -> & Hx)]; [exfalso; eapply (rin_empty 0); eauto|]. cbn in *. unfold in_grid. cbn. lia. }
  split; [lia|]. split; [vm_compute; reflexivity|]. split; [vm_compute; reflexivity|].
  unfold in_grid. cbn. lia.
Qed.
Print Assumptions C07_wide_expansion_refuted.

(** Unstructured grids: exactly those cells which can be reached in at most
    [w] steps along the adjacency. *)
Theorem C55_expand_adjacency : forall r w adj, reachable 0 r ->
  exists r', reg_expand_adjacency r w adj = Some r' /\
    forall x, reg_count r' [x] = Some true <->
      exists k, (k <= w)%nat /\ steps adj (fun x0 => reg_count r [x0] = Some true) k x.
Proof.
  intros r w adj Hr. destruct (expand_adjacency_valid adj r w (reachable_valid 0 r Hr)) as (r' & E & _ & H).
  exists r'. split; [exact E|exact H].
Qed.
Print Assumptions C55_expand_adjacency.

Example C07_adjacency_example :
  let adj := fun x => if x =? 5 then [] else [x * 2; x + 1] in
  option_map reg_streaks (reg_expand_adjacency (reg_insert (reg_empty 1) (mkStreak [] 4 6)) 2 adj)
  = Some (Some [mkStreak [] 4 6; mkStreak [] 8 10; mkStreak [] 16 17]).
Proof. vm_compute. reflexivity. Qed.
