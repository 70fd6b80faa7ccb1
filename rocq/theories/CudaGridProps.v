(** Properties of grids on the device and of the CUDAStepper's kernel. *)
From Coq Require Import Permutation.
From Verif Require Import Base ListFacts RegionSpec RegionModel RegionRep RegionIterModel RegionStreaks RegionOpsModel HaloSpec RegionIter RegionOps StripingFacts
  CoordModel CoordSpec CoordFacts TopologyFacts PatchModel ConfigFacts GridModel GridSpec GridFacts DisplacedFacts GridReach
  StencilModel UpdateModel UpdateSpec SoAReach CudaGridModel CudaGridSpec CudaGridFacts CudaKernelFacts.

(** ** C174 *)

(** Whatever has been written to a CUDAGrid: a read yields what was written
    last to the place the coordinate denotes, and getEdge() what was written
    last to any place outside. *)
Theorem C174_reads_back : forall C t correct b topo (dflt edge : C) ops,
  setup_ok t correct b topo -> Forall (access_ok (cuda_coord t correct b topo) (in_box b)) ops ->
  let f := contents (ddenotes t correct b topo) dflt edge ops in
  exists g, cg_ops t correct (cg_make b dflt edge topo) ops = Some g /\ cg_box g = b /\ cg_host g = f None /\
    (forall c, cuda_coord t correct b topo c -> cg_get t correct g c = Some (f (ddenotes t correct b topo c))) /\
    forall s, s_x s <= s_e s -> Forall (in_box b) (streak_coords s) ->
      cg_get_streak t correct g s = Some (map (fun c => f (ddenotes t correct b topo c)) (streak_coords s)).
Proof.
  intros C t correct b topo dflt edge ops Hs Hops f.
  destruct (crep_ops t correct b topo Hs ops _ _ (crep_make t correct b topo Hs dflt edge) Hops) as (g & E & R). exists g. split; [exact E|].
  split; [apply R|]. split; [apply R|]. split.
  - intros c Hc. exact (crep_get t correct b topo Hs g _ c R Hc).
  - intros s Hx Hc. rewrite (crep_get_streak t correct b topo Hs g _ s R Hx Hc). now rewrite map_map.
Qed.
Print Assumptions C174_reads_back.

(** Saving a region to a buffer and loading it elsewhere copies exactly the
    cells of the region. Buffers which are too small lead to exceptions. *)
Theorem C174_region_transfer : forall C n t1 k1 b1 topo1 t2 k2 b2 topo2 (src dst : cgrid C) r off1 off2 size cs,
  length t1 = S n -> length t2 = S n -> setup_ok t1 k1 b1 topo1 -> setup_ok t2 k2 b2 topo2 ->
  cg_reach t1 k1 b1 topo1 src -> cg_reach t2 k2 b2 topo2 dst -> rvalid n r ->
  rows_ok t1 k1 b1 topo1 (inr n r) off1 -> rows_ok t2 k2 b2 topo2 (inr n r) off2 -> apart t2 k2 b2 topo2 (inr n r) off2 ->
  region_coords r = Some cs -> 0 <= size ->
  (size < Z.of_nat (length cs) -> cg_save t1 k1 src r off1 size = Throws /\ forall vs, length vs = Z.to_nat size -> cg_load t2 k2 dst r off2 vs = Throws) /\
  (Z.of_nat (length cs) <= size -> exists buf, cg_save t1 k1 src r off1 size = Done buf /\
     Forall2 (fun c v => cg_get t1 k1 src (zadd c off1) = Some v) cs buf /\
     forall rest, exists dst', cg_load t2 k2 dst r off2 (buf ++ rest) = Done dst' /\
       (forall c, inr n r c -> cg_get t2 k2 dst' (zadd c off2) = cg_get t1 k1 src (zadd c off1)) /\
       (forall c, cuda_coord t2 k2 b2 topo2 c ->
          (forall c0, inr n r c0 -> ddenotes t2 k2 b2 topo2 (zadd c0 off2) <> ddenotes t2 k2 b2 topo2 c) ->
          cg_get t2 k2 dst' c = cg_get t2 k2 dst c) /\
       cg_host dst' = cg_host dst).
Proof.
  intros C n t1 k1 b1 topo1 t2 k2 b2 topo2 src dst r off1 off2 size cs Ht1 Ht2 Hs1 Hs2 Hr1 Hr2 Hv R1 R2 Hap Ecs H0.
  destruct (cg_reach_rep _ _ _ _ _ Hs1 Hr1) as [f1 F1]. destruct (cg_reach_rep _ _ _ _ _ Hs2 Hr2) as [f2 F2].
  destruct (region_parts n r Hv) as (ss & cs' & Ess & Ecs' & Ef & Hss & Hcs & Hnd). rewrite Ecs in Ecs'. injection Ecs' as <-.
  assert (Hsz : streaks_size ss = Z.of_nat (length cs)) by (rewrite Ef; apply size_spec; eapply Forall_impl; [|exact Hss]; cbn; tauto).
  unfold cg_save, cg_load. rewrite Ess. rewrite Hsz. split; intros Hsize.
  - destruct (Z.ltb_spec size (Z.of_nat (length cs))); [|lia]. split; [reflexivity|]. intros vs Hl.
    destruct (Z.ltb_spec (Z.of_nat (length vs)) (Z.of_nat (length cs))); [reflexivity|lia].
  - destruct (Z.ltb_spec size (Z.of_nat (length cs))); [lia|].
    rewrite (save_spec t1 k1 b1 topo1 Hs1 src f1 off1 ss F1) by now apply (region_fits t1 k1 b1 topo1 n r).
    set (g1 := fun c => f1 (ddenotes t1 k1 b1 topo1 (zadd c off1))).
    assert (Hbuf : map f1 (all_places t1 k1 b1 topo1 off1 ss) = map g1 cs) by (unfold all_places; rewrite !map_map, Ef; reflexivity).
    rewrite Hbuf. exists (map g1 cs). split; [reflexivity|].
    assert (Hget1 : forall c, inr n r c -> cg_get t1 k1 src (zadd c off1) = Some (g1 c)).
    { intros c Hc. apply (crep_get t1 k1 b1 topo1 Hs1 src f1 _ F1). now apply R1. }
    split.
    { clear - Hget1 Hcs. assert (H : forall c, In c cs -> inr n r c) by (intros; now apply Hcs). clear Hcs.
      induction cs as [|c cs IH]; [constructor|]. cbn [map]. constructor; [apply Hget1, H; now left|]. apply IH. intros; apply H; now right. }
    intros rest. rewrite app_length, map_length.
    destruct (load_spec t2 k2 b2 topo2 Hs2 off2 ss dst f2 (map g1 cs ++ rest) F2) as (dst' & E & F2'); [now apply (region_fits t2 k2 b2 topo2 n r)|rewrite <- Ef, app_length, map_length; apply Nat.le_add_r|].
    rewrite E. exists dst'. split.
    { match goal with |- context [Z.ltb ?x ?y] => destruct (Z.ltb_spec x y) end; [unfold coord in *; lia|reflexivity]. }
    destruct (last_written_map (fun c => ddenotes t2 k2 b2 topo2 (zadd c off2)) g1 f2 cs Hnd) as [Hat Hother].
    { intros a c Ha Hc. apply Hap; now apply Hcs. }
    assert (Ec : combine (all_places t2 k2 b2 topo2 off2 ss) (map g1 cs ++ rest) = combine (map (fun c => ddenotes t2 k2 b2 topo2 (zadd c off2)) cs) (map g1 cs)).
    { unfold all_places. rewrite map_map, <- Ef. rewrite <- (app_nil_r (map (fun c => _) cs)) at 1. rewrite combine_app2 by (now rewrite !map_length). apply app_nil_r. }
    rewrite Ec in F2'. split; [|split].
    + intros c Hc. rewrite (crep_get t2 k2 b2 topo2 Hs2 dst' _ _ F2') by now apply R2. rewrite Hget1 by exact Hc. f_equal. apply (Hat c). now apply Hcs.
    + intros c Hc Hne. rewrite (crep_get t2 k2 b2 topo2 Hs2 dst' _ _ F2' Hc), (crep_get t2 k2 b2 topo2 Hs2 dst _ _ F2 Hc). f_equal. apply Hother.
      intros c0 Hc0. apply Hne. now apply Hcs.
    + destruct F2' as (_ & _ & _ & E'). destruct F2 as (_ & _ & _ & E2). rewrite E', E2. apply Hother.
      intros c Hc. apply Hcs in Hc. destruct R2 as [R2 _]. destruct (R2 c Hc) as (_ & c' & -> & _). discriminate.
Qed.
Print Assumptions C174_region_transfer.

(** The same for copies from the device to a grid on the host ... *)
Theorem C174_save_to_host : forall C n t correct b bh topo (g : cgrid C) (d : dgrid C) r ss,
  length t = S n -> setup_ok t correct b topo -> setup_ok t correct bh topo -> cg_reach t correct b topo g -> dg_reach t correct bh topo d ->
  rvalid n r -> reg_streaks r = Some ss -> rows_ok t correct b topo (inr n r) (no_offset t) -> rows_ok t correct bh topo (inr n r) (no_offset t) ->
  apart t correct bh topo (inr n r) (no_offset t) ->
  exists d', cg_save_grid t correct g d ss = Some d' /\
    (forall c, inr n r c -> reachable_coord t correct bh topo c -> dg_get t correct d' c = cg_get t correct g c) /\
    (forall c, reachable_coord t correct bh topo c -> (forall c0, inr n r c0 -> ddenotes t correct bh topo c0 <> ddenotes t correct bh topo c) ->
       dg_get t correct d' c = dg_get t correct d c).
Proof.
  intros C n t correct b bh topo g d r ss Ht Hs Hh Hr Hd Hv Ess R1 R2 Hap.
  destruct (cg_reach_rep _ _ _ _ _ Hs Hr) as [f F]. destruct (dg_reach_rep _ _ _ _ _ Hh Hd) as [h H].
  destruct (region_parts n r Hv) as (ss' & cs & Ess' & Ecs & Ef & Hss & Hcs & Hnd). rewrite Ess in Ess'. injection Ess' as <-.
  destruct (host_save_spec t correct b bh topo Hs Hh ss g f d h F H) as (d' & E & H'); [now apply (region_both t correct b bh topo n r)|].
  rewrite <- Ef, map_map in H'. exists d'. split; [exact E|].
  assert (Hlen : forall c, inr n r c -> zadd c (no_offset t) = c) by (intros c [Hc _]; apply zadd_no_offset; unfold coord in *; lia).
  destruct (last_written_map (ddenotes t correct bh topo) (fun c => f (ddenotes t correct b topo c)) h cs Hnd) as [Hat Hother].
  { intros a c Ha Hc. apply Hcs in Ha. apply Hcs in Hc. rewrite <- (Hlen a Ha), <- (Hlen c Hc) at 1. now apply Hap. }
  split.
  - intros c Hc Hrc. rewrite (drep_get t correct bh topo Hh d' _ c H' Hrc), (crep_get t correct b topo Hs g f c F); [f_equal; apply (Hat c); now apply Hcs|].
    rewrite <- (Hlen c Hc). now apply R1.
  - intros c Hc Hne. rewrite (drep_get t correct bh topo Hh d' _ c H' Hc), (drep_get t correct bh topo Hh d h c H Hc). f_equal. apply Hother. intros c0 Hc0. apply Hne. now apply Hcs.
Qed.
Print Assumptions C174_save_to_host.

(** ... and vice versa. *)
Theorem C174_load_from_host : forall C n t correct b bh topo (g : cgrid C) (d : dgrid C) r ss,
  length t = S n -> setup_ok t correct b topo -> setup_ok t correct bh topo -> cg_reach t correct b topo g -> dg_reach t correct bh topo d ->
  rvalid n r -> reg_streaks r = Some ss -> rows_ok t correct b topo (inr n r) (no_offset t) -> rows_ok t correct bh topo (inr n r) (no_offset t) ->
  apart t correct b topo (inr n r) (no_offset t) ->
  exists g', cg_load_grid t correct d g ss = Some g' /\ cg_host g' = cg_host g /\
    (forall c, inr n r c -> reachable_coord t correct bh topo c -> cg_get t correct g' c = dg_get t correct d c) /\
    (forall c, cuda_coord t correct b topo c -> (forall c0, inr n r c0 -> ddenotes t correct b topo c0 <> ddenotes t correct b topo c) ->
       cg_get t correct g' c = cg_get t correct g c).
Proof.
  intros C n t correct b bh topo g d r ss Ht Hs Hh Hr Hd Hv Ess R1 R2 Hap.
  destruct (cg_reach_rep _ _ _ _ _ Hs Hr) as [f F]. destruct (dg_reach_rep _ _ _ _ _ Hh Hd) as [h H].
  destruct (region_parts n r Hv) as (ss' & cs & Ess' & Ecs & Ef & Hss & Hcs & Hnd). rewrite Ess in Ess'. injection Ess' as <-.
  destruct (host_load_spec t correct b bh topo Hs Hh ss g f d h F H) as (g' & E & F'); [now apply (region_both t correct b bh topo n r)|].
  rewrite <- Ef, map_map in F'. exists g'. split; [exact E|].
  assert (Hlen : forall c, inr n r c -> zadd c (no_offset t) = c) by (intros c [Hc _]; apply zadd_no_offset; unfold coord in *; lia).
  destruct (last_written_map (ddenotes t correct b topo) (fun c => h (ddenotes t correct bh topo c)) f cs Hnd) as [Hat Hother].
  { intros a c Ha Hc. apply Hcs in Ha. apply Hcs in Hc. rewrite <- (Hlen a Ha), <- (Hlen c Hc) at 1. now apply Hap. }
  split; [|split].
  - destruct F' as (_ & _ & _ & ->). destruct F as (_ & _ & _ & ->). apply Hother. intros c Hc. apply Hcs in Hc. destruct R1 as [R1 _].
    destruct (R1 c Hc) as (_ & c' & Hc' & _). rewrite Hlen in Hc' by exact Hc. rewrite Hc'. discriminate.
  - intros c Hc Hrc. rewrite (drep_get t correct bh topo Hh d h c H Hrc), (crep_get t correct b topo Hs g' _ c F'); [f_equal; apply (Hat c); now apply Hcs|].
    rewrite <- (Hlen c Hc). now apply R1.
  - intros c Hc Hne. rewrite (crep_get t correct b topo Hs g' _ c F' Hc), (crep_get t correct b topo Hs g f c F Hc). f_equal. apply Hother. intros c0 Hc0. apply Hne. now apply Hcs.
Qed.
Print Assumptions C174_load_from_host.

(** Regions inside of the box can be copied. *)
Theorem C174_regions_in_box : forall t correct b topo (R : coord -> Prop) off, setup_ok t correct b topo -> length off = length t ->
  (forall c, R c -> length c = length t /\ in_box b (zadd c off)) -> rows_ok t correct b topo R off /\ apart t correct b topo R off.
Proof. exact box_region_ok. Qed.
Print Assumptions C174_regions_in_box.

(** A part of a torus of 10x10 cells, which contains the corner, and a bigger
    grid without displacement on the device; a third grid on the host. *)
Example C174_example :
  let r := insert_all (reg_empty 2) [mkStreak [9] 8 10; mkStreak [10] 9 11; mkStreak [1] 2 3] in
  let t := [true; true] in let b1 := mkBox [8; 8] [5; 5] in let b2 := mkBox [-3; -3] [20; 20] in
  let ops := [GSet [9; 9] 1; GSet [1; 2] 2; GSetStreak (mkStreak [10] 9 11) [3; 4]] in
  rvalid 1 r /\ setup_ok t true b1 [10; 10] /\ setup_ok t false b2 [0; 0] /\
  Forall (access_ok (cuda_coord t true b1 [10; 10]) (in_box b1)) ops /\
  rows_ok t true b1 [10; 10] (inr 1 r) [0; 0] /\ rows_ok t false b2 [0; 0] (inr 1 r) [1; 1] /\ apart t false b2 [0; 0] (inr 1 r) [1; 1] /\
  exists src dst' host',
    cg_ops t true (cg_make b1 0 (-1) [10; 10]) ops = Some src /\ cg_get t true src [11; 12] = Some 2 /\
    cg_save t true src r [0; 0] 5 = Done [2; 0; 1; 3; 4] /\ cg_save t true src r [0; 0] 4 = Throws /\
    cg_load t false (cg_make b2 5 (-1) [0; 0]) r [1; 1] [2; 0; 1; 3; 4] = Done dst' /\
    cg_get t false dst' [2; 3] = Some 2 /\ cg_get t false dst' [11; 11] = Some 4 /\ cg_get t false dst' [2; 4] = Some 5 /\
    obind (reg_streaks r) (cg_save_grid t true src (dg_make b1 7 (-1) [10; 10])) = Some host' /\
    dg_get t true host' [11; 12] = Some 2 /\ dg_get t true host' [0; 0] = Some 4 /\ dg_get t true host' [8; 8] = Some 7.
Proof.
  intros r t b1 b2 ops.
  destruct (insert_all_valid 1 [mkStreak [9] 8 10; mkStreak [10] 9 11; mkStreak [1] 2 3] (reg_empty 2) (rvalid_empty 1)) as [V Hi]; [repeat constructor|].
  split; [exact V|].
  assert (Hin : forall c, inr 1 r c -> In c [[9; 8]; [9; 9]; [10; 9]; [10; 10]; [1; 2]]).
  { intros c [Hc H]. apply Hi in H; auto. destruct H as [H|(s & Hs & H)]; [exfalso; eapply (rin_empty 1); eauto|]. destruct c as [|y [|x [|]]]; try discriminate.
    destruct Hs as [<-|[<-|[<-|[]]]]; destruct H as (x' & E & Hx); cbn in E, Hx; injection E as -> ->; 
      (assert (x' = 8 \/ x' = 9 \/ x' = 10 \/ x' = 2) as K by lia); destruct K as [-> |[-> |[-> | ->]]]; cbn; auto 10; lia. }
  split; [repeat split; cbn; try lia; try discriminate; repeat constructor; lia|].
  split; [repeat split; cbn; try lia; try discriminate; repeat constructor; lia|].
  split.
  { repeat constructor; cbn; try lia; try (intros c' E; vm_compute in E; injection E as <-; cbn; lia). }
  split; [|split; [|split]].
  - split.
    + intros c Hc. apply Hin in Hc. repeat destruct Hc as [<-|Hc]; try (now destruct Hc); (split; [repeat split; cbn; try lia; intros c' E; vm_compute in E; injection E as <-; cbn; lia|]);
        eexists; (split; [vm_compute; reflexivity|cbn; lia]).
    + intros pre x c' H1 H2 H. apply Hin in H1. apply Hin in H2. destruct pre as [|y [|z pre]]; [| |destruct pre; cbn in H1; intuition discriminate]; cbn [app] in *.
      * cbn in H1. intuition discriminate.
      * repeat destruct H1 as [H1|H1]; try (now destruct H1); injection H1 as <- <-; vm_compute in H; injection H as <-; cbn in H2; vm_compute; auto; intuition congruence.
  - apply box_region_ok; [repeat split; cbn; try lia; try discriminate; repeat constructor; lia|reflexivity|].
    intros c Hc. apply Hin in Hc. repeat destruct Hc as [<-|Hc]; try (now destruct Hc); split; cbn; lia.
  - apply box_region_ok; [repeat split; cbn; try lia; try discriminate; repeat constructor; lia|reflexivity|].
    intros c Hc. apply Hin in Hc. repeat destruct Hc as [<-|Hc]; try (now destruct Hc); split; cbn; lia.
  - do 3 eexists. repeat split; vm_compute; reflexivity.
Qed.

(** ** C175 *)

(** Refuted: on a torus, a CUDAGrid which isn't topologically correct doesn't
    wrap coordinates as a DisplacedGrid does. It accesses another row, or
    memory beyond the array. *)
Theorem C175_wrap_refuted : exists t b topo (ops : list (gop Z)) c1 c2 g d,
  setup_ok t false b topo /\ Forall (access_ok (in_box b) (in_box b)) ops /\
  reachable_coord t false b topo c1 /\ reachable_coord t false b topo c2 /\
  cg_ops t false (cg_make b 0 9 topo) ops = Some g /\ dg_ops t false (dg_make b 0 9 topo) ops = Some d /\
  dg_get t false d c1 = Some 1 /\ cg_get t false g c1 = Some 2 /\ dg_get t false d c2 = Some 3 /\ cg_get t false g c2 = None.
Proof.
  exists [true; true], (mkBox [0; 0] [2; 3]), [2; 3], [GSet [0; 0] 1; GSet [1; 0] 2; GSet [0; 2] 3], [0; 3], [0; -1]. do 2 eexists.
  split; [repeat split; cbn; try lia; try discriminate; repeat constructor; lia|].
  split; [repeat constructor; cbn; lia|].
  split; [repeat split; cbn; lia|]. split; [repeat split; cbn; lia|].
  repeat split; vm_compute; reflexivity.
Qed.
Print Assumptions C175_wrap_refuted.

(** Refuted: rows which cross the seam of a torus are copied en bloc. Here, the
    cells at (2, 0) and, via the topology, at (0, 0) are requested, and each of
    them can be read separately, but the second one saved is the one at (0, 1). *)
Theorem C175_seam_refuted : exists t b topo r (ops : list (gop Z)) g,
  setup_ok t true b topo /\ rvalid 1 r /\ (forall c, inr 1 r c -> cuda_coord t true b topo c) /\
  Forall (access_ok (in_box b) (in_box b)) ops /\ cg_ops t true (cg_make b 0 9 topo) ops = Some g /\
  region_coords r = Some [[0; 2]; [0; 3]] /\ cg_get t true g [0; 2] = Some 3 /\ cg_get t true g [0; 3] = Some 1 /\
  cg_save t true g r [0; 0] 2 = Done [3; 2].
Proof.
  exists [true; true], (mkBox [0; 0] [2; 3]), [2; 3], (insert_all (reg_empty 2) [mkStreak [0] 2 4]), [GSet [0; 0] 1; GSet [1; 0] 2; GSet [0; 2] 3]. eexists.
  destruct (insert_all_valid 1 [mkStreak [0] 2 4] (reg_empty 2) (rvalid_empty 1)) as [V Hi]; [repeat constructor|].
  split; [repeat split; cbn; try lia; try discriminate; repeat constructor; lia|]. split; [exact V|]. split.
  { intros c [Hc H]. apply Hi in H; auto. destruct H as [H|(s & Hs & H)]; [exfalso; eapply (rin_empty 1); eauto|].
    destruct Hs as [<-|[]]. destruct H as (x' & -> & Hx). cbn in Hx. assert (x' = 2 \/ x' = 3) as [-> | ->] by lia;
      (repeat split; cbn; try lia; intros c' E; vm_compute in E; injection E as <-; cbn; lia). }
  split; [repeat constructor; cbn; lia|]. repeat split; vm_compute; reflexivity.
Qed.
Print Assumptions C175_seam_refuted.

(** Refuted: a Streak of one cell outside of the grid is written to the edge
    cell on the device, but getEdge() goes on to return the host's copy. *)
Theorem C175_edge_refuted : exists t b topo g s c,
  setup_ok t false b topo /\ streak_coords s = [c] /\ cuda_coord t false b topo c /\ ddenotes t false b topo c = None /\
  cg_set_streak t false (cg_make b 0 9 topo) s [5] = Some g /\ cg_get t false g c = Some 5 /\ cg_host g = 9.
Proof.
  exists [false; false], (mkBox [0; 0] [2; 3]), [2; 3]. eexists. exists (mkStreak [0] 3 4), [0; 3].
  split; [repeat split; cbn; try lia; try discriminate; repeat constructor; lia|]. split; [reflexivity|].
  split; [split; [reflexivity|right; reflexivity]|]. repeat split; vm_compute; reflexivity.
Qed.
Print Assumptions C175_edge_refuted.

(** ** C176 *)

Lemma reach_holds {C} t correct b topo (g : cgrid C) F : setup_ok t correct b topo -> cg_reach t correct b topo g ->
  (forall c, in_box b c -> cg_get t correct g c = Some (F c)) -> array_holds b (cg_cells g) F /\ cg_store g = cg_host g.
Proof.
  intros Hs Hr HF. destruct (cg_reach_rep t correct b topo g Hs Hr) as [f Hf]. pose proof Hf as (_ & _ & (_ & Hl & He & Hg) & Hh). cbn [g_cells g_edge] in *.
  split; [split; [exact Hl|]|congruence]. intros c Hc. destruct (box_den t correct b topo Hs c Hc) as (H1 & H2 & H3).
  rewrite (Hg _ H3), <- (HF c Hc), (crep_get t correct b topo Hs g f c Hf H1), H2. reflexivity.
Qed.

Lemma holds_get {C} t correct b topo (g : cgrid C) l G c : setup_ok t correct b topo -> cg_reach t correct b topo g ->
  array_holds b l G -> in_box b c -> cg_get t correct (cg_with g l) c = Some (G c).
Proof.
  intros Hs Hr [Hl Hg] Hc. destruct (cg_reach_rep t correct b topo g Hs Hr) as [f Hf]. destruct (box_den t correct b topo Hs c Hc) as (H1 & H2 & H3).
  pose proof (address_spec t correct b topo Hs g f c Hf H1) as Ha. rewrite H2 in Ha. destruct Ha as [_ Ha].
  unfold cg_get. change (cg_address t correct (cg_with g l) c) with (cg_address t correct g c). rewrite Ha. cbn [cg_read vec_read cg_with cg_cells].
  rewrite (Hg c Hc). reflexivity.
Qed.

Lemma dims_length t correct b topo : setup_ok t correct b topo -> length t = length (b_dim b) /\ allpos (b_dim b) /\ length (b_origin b) = length (b_dim b).
Proof. intros Hs. split; [exact (so_len t correct b topo Hs)|]. split; [exact (so_pos t correct b topo Hs)|exact (so_org t correct b topo Hs)]. Qed.

(** What a launch with any number of blocks and threads does to two and three
    dimensional grids: it updates the first cells of the region, one per
    block, no matter in which order the threads run. *)
Theorem C176_kernel_blocks : forall C t correct b topo st (upd : nat -> list C -> C -> C) (old new : cgrid C) F G n r cs nano grid block order,
  setup_ok t correct b topo -> (length t = 2 \/ length t = 3)%nat -> length t = S n -> st_dim st = length t -> repeatable upd ->
  cg_reach t correct b topo old -> cg_reach t correct b topo new ->
  (forall c, in_box b c -> cg_get t correct old c = Some (F c)) -> (forall c, in_box b c -> cg_get t correct new c = Some (G c)) ->
  rvalid n r -> region_coords r = Some cs -> (forall c, inr n r c -> in_box b c /\ near_box st b c) ->
  (1 <= block)%nat -> launch_order grid block order ->
  exists coords l, cuda_region (length t) cs = Some coords /\
    run_threads t st upd b nano (cg_cells old) (cg_store old) coords (Z.of_nat (length cs)) order (cg_cells new) = Some l /\
    forall c, in_box b c ->
      (In c (firstn (Z.to_nat grid) cs) -> cg_get t correct (cg_with new l) c = Some (upd nano (map (box_value t b F (cg_host old)) (neighbors st c)) (G c))) /\
      (~ In c (firstn (Z.to_nat grid) cs) -> cg_get t correct (cg_with new l) c = Some (G c)).
Proof.
  intros C t correct b topo st upd old new F G n r cs nano grid block order Hs Ht Htn Hst Hrep Ho Hn HF HG Hv Ecs Hreg Hb Hord.
  destruct (dims_length t correct b topo Hs) as (Hl & Hp & Horg).
  destruct (region_coords_nodup n r Hv) as (cs' & Ecs' & Hcs & Hnd). rewrite Ecs in Ecs'. injection Ecs' as <-.
  destruct (cuda_region_spec (length t) cs) as (coords & Ec & Hload).
  { apply Forall_forall. intros c Hc. apply Hcs in Hc. destruct Hc as [Hc _]. unfold coord in *. lia. }
  destruct (reach_holds t correct b topo old F Hs Ho HF) as [Ha Hedge]. destruct (reach_holds t correct b topo new G Hs Hn HG) as [Ha' _].
  assert (Hk : forall k, In k order <-> 0 <= k < grid).
  { intros k. rewrite <- (kernel_threads_in grid block k Hb). split; apply Permutation_in; [symmetry|]; exact Hord. }
  rewrite Hl in Hload.
  destruct (threads_spec t st upd b Hl ltac:(rewrite <- Hl; exact Ht) Hp Horg ltac:(congruence) Hrep cs coords nano (cg_cells old) (cg_store old) F Hload) with (order := order) (new := cg_cells new) (G := G)
    as (l & E & G' & A & D1 & D2); auto.
  { apply Forall_forall. intros c Hc. apply Hcs in Hc. now apply Hreg. }
  { apply Forall_forall. intros c Hc. apply Hcs in Hc. now apply Hreg. }
  { apply Forall_forall. intros k Hin. apply Hk in Hin. lia. }
  exists coords, l. split; [exact Ec|]. split; [exact E|]. intros c Hc. rewrite (holds_get t correct b topo new l G' c Hs Hn A Hc).
  assert (Hfirst : In c (firstn (Z.to_nat grid) cs) <-> exists k, In k order /\ nth_error cs (Z.to_nat k) = Some c).
  { split.
    - intros H. apply In_nth_error in H. destruct H as [i Hi]. exists (Z.of_nat i).
      assert (Hlt : (i < length (firstn (Z.to_nat grid) cs))%nat) by (apply nth_error_Some; congruence). rewrite firstn_length in Hlt.
      split; [apply Hk; lia|]. rewrite Nat2Z.id. rewrite <- (firstn_skipn (Z.to_nat grid) cs). rewrite nth_error_app1; [exact Hi|rewrite firstn_length; exact Hlt].
    - intros (k & H1 & H2). apply Hk in H1. apply nth_error_In with (n := Z.to_nat k).
      assert (Hlt : (Z.to_nat k < length cs)%nat) by (apply nth_error_Some; congruence).
      rewrite <- H2. rewrite <- (firstn_skipn (Z.to_nat grid) cs) at 2. symmetry. apply nth_error_app1. rewrite firstn_length. lia. }
  split.
  - intros H. apply Hfirst in H. destruct H as (k & H1 & H2). rewrite (D1 k c H1 H2). unfold fresh_value. now rewrite Hedge.
  - intros H. f_equal. apply D2; [exact Hc|]. intros k H1 H2. apply H. apply Hfirst. eauto.
Qed.
Print Assumptions C176_kernel_blocks.

(** The CUDAStepper's kernel performs one synchronous update of a region of up
    to 200 cells: all threads of a block update the same cell, which is to be
    harmless. *)
Theorem C176_kernel : forall C t correct b topo st (upd : nat -> list C -> C -> C) (old new : cgrid C) F G n r cs nano order,
  setup_ok t correct b topo -> (length t = 2 \/ length t = 3)%nat -> length t = S n -> st_dim st = length t -> repeatable upd ->
  cg_reach t correct b topo old -> cg_reach t correct b topo new ->
  (forall c, in_box b c -> cg_get t correct old c = Some (F c)) -> (forall c, in_box b c -> cg_get t correct new c = Some (G c)) ->
  rvalid n r -> region_coords r = Some cs -> (length cs <= 200)%nat -> (forall c, inr n r c -> in_box b c /\ near_box st b c) ->
  launch_order kernel_grid kernel_block order ->
  exists coords l, cuda_region (length t) cs = Some coords /\
    run_threads t st upd b nano (cg_cells old) (cg_store old) coords (Z.of_nat (length cs)) order (cg_cells new) = Some l /\
    (forall c, inr n r c -> cg_get t correct (cg_with new l) c = Some (upd nano (map (box_value t b F (cg_host old)) (neighbors st c)) (G c))) /\
    (forall c, in_box b c -> ~ inr n r c -> cg_get t correct (cg_with new l) c = Some (G c)).
Proof.
  intros C t correct b topo st upd old new F G n r cs nano order Hs Ht Htn Hst Hrep Ho Hn HF HG Hv Ecs Hlen Hreg Hord.
  destruct (C176_kernel_blocks C t correct b topo st upd old new F G n r cs nano kernel_grid kernel_block order Hs Ht Htn Hst Hrep Ho Hn HF HG Hv Ecs Hreg) as (coords & l & E1 & E2 & H);
    [unfold kernel_block; lia|exact Hord|].
  destruct (region_coords_nodup n r Hv) as (cs' & Ecs' & Hcs & Hnd). rewrite Ecs in Ecs'. injection Ecs' as <-.
  assert (Hall : firstn (Z.to_nat kernel_grid) cs = cs) by (apply firstn_all2; unfold kernel_grid; lia). rewrite Hall in H.
  exists coords, l. split; [exact E1|]. split; [exact E2|]. split.
  - intros c Hc. apply H; [now apply Hreg|now apply Hcs].
  - intros c Hc Hn'. apply H; [exact Hc|]. intros Hi. apply Hn'. now apply Hcs.
Qed.
Print Assumptions C176_kernel.

(** ** C177 *)

(** Refuted: in regions of more than 200 cells, all but the first 200 are left
    alone. *)
Theorem C177_large_regions_skipped : forall C t correct b topo st (upd : nat -> list C -> C -> C) (old new : cgrid C) F G n r cs nano order,
  setup_ok t correct b topo -> (length t = 2 \/ length t = 3)%nat -> length t = S n -> st_dim st = length t -> repeatable upd ->
  cg_reach t correct b topo old -> cg_reach t correct b topo new ->
  (forall c, in_box b c -> cg_get t correct old c = Some (F c)) -> (forall c, in_box b c -> cg_get t correct new c = Some (G c)) ->
  rvalid n r -> region_coords r = Some cs -> (forall c, inr n r c -> in_box b c /\ near_box st b c) ->
  launch_order kernel_grid kernel_block order ->
  exists coords l, cuda_region (length t) cs = Some coords /\
    run_threads t st upd b nano (cg_cells old) (cg_store old) coords (Z.of_nat (length cs)) order (cg_cells new) = Some l /\
    forall c, In c (skipn 200 cs) -> cg_get t correct (cg_with new l) c = Some (G c).
Proof.
  intros C t correct b topo st upd old new F G n r cs nano order Hs Ht Htn Hst Hrep Ho Hn HF HG Hv Ecs Hreg Hord.
  destruct (C176_kernel_blocks C t correct b topo st upd old new F G n r cs nano kernel_grid kernel_block order Hs Ht Htn Hst Hrep Ho Hn HF HG Hv Ecs Hreg) as (coords & l & E1 & E2 & H);
    [unfold kernel_block; lia|exact Hord|].
  destruct (region_coords_nodup n r Hv) as (cs' & Ecs' & Hcs & Hnd). rewrite Ecs in Ecs'. injection Ecs' as <-.
  exists coords, l. split; [exact E1|]. split; [exact E2|]. intros c Hc.
  assert (Hin : In c cs) by (rewrite <- (firstn_skipn 200 cs); apply in_or_app; now right).
  apply H; [apply Hreg; now apply Hcs|]. intros Hf. change (Z.to_nat kernel_grid) with 200%nat in Hf.
  rewrite <- (firstn_skipn 200 cs) in Hnd. clear - Hnd Hf Hc. revert Hnd Hf. generalize (firstn 200 cs) as a. induction a as [|x a IH]; intros Hnd [].
  - subst. cbn in Hnd. inversion Hnd as [|? ? Hx _]; subst. apply Hx. apply in_or_app. now right.
  - cbn in Hnd. inversion Hnd; subst. auto.
Qed.
Print Assumptions C177_large_regions_skipped.

Definition ex_stencil : stencil := mkStencil VonNeumann 2 1.

Lemma ex_near b y x oy ox h w : b = mkBox [oy; ox] [h; w] -> 1 <= h -> 1 <= w -> in_box b [y; x] -> near_box ex_stencil b [y; x].
Proof.
  intros -> Hh Hw Hc. destruct Hc as (H1 & H2 & _). unfold near_box, neighbors.
  assert (exists T, st_table ex_stencil = T /\ Forall (fun e => exists dy dx, fc_coord 2 (snd e) = [dy; dx] /\ -1 <= dy <= 1 /\ -1 <= dx <= 1) T) as (T & -> & HT).
  { eexists. split; [vm_compute; reflexivity|]. repeat constructor; do 2 eexists; (split; [vm_compute; reflexivity|lia]). }
  rewrite Forall_map. eapply Forall_impl; [|exact HT]. intros e (dy & dx & E & K1 & K2). cbn [st_dim ex_stencil]. rewrite E. cbn [b_dim b_origin zadd zsub close_by]. lia.
Qed.

Lemma ex_make_get t correct b topo (v e : Z) c : setup_ok t correct b topo -> in_box b c -> cg_get t correct (cg_make b v e topo) c = Some v.
Proof.
  intros Hs Hc. destruct (box_den t correct b topo Hs c Hc) as (H1 & H2 & H3). rewrite (crep_get t correct b topo Hs _ _ c (crep_make t correct b topo Hs v e) H1), H2. reflexivity.
Qed.

Theorem C177_large_regions_refuted : exists t correct b topo st (upd : nat -> list Z -> Z -> Z) (old new : cgrid Z) r cs c,
  setup_ok t correct b topo /\ st_dim st = length t /\ repeatable upd /\ cg_reach t correct b topo old /\ cg_reach t correct b topo new /\
  rvalid 1 r /\ region_coords r = Some cs /\ length cs = 201%nat /\ (forall c, inr 1 r c -> in_box b c /\ near_box st b c) /\
  inr 1 r c /\ (forall nano vs v, upd nano vs v = 1) /\
  forall nano order, launch_order kernel_grid kernel_block order ->
    exists coords l, cuda_region 2 cs = Some coords /\
      run_threads t st upd b nano (cg_cells old) (cg_store old) coords 201 order (cg_cells new) = Some l /\
      cg_get t correct (cg_with new l) c = Some 0.
Proof.
  set (b := mkBox [0; 0] [1; 201]). set (r := insert_all (reg_empty 2) [mkStreak [0] 0 201]). set (cs := map (fun x => [0; x]) (zrange 0 201)).
  exists [true; true], true, b, [1; 201], ex_stencil, (fun _ _ _ => 1), (cg_make b 0 9 [1; 201]), (cg_make b 0 9 [1; 201]), r, cs, [0; 200].
  assert (Hs : setup_ok [true; true] true b [1; 201]) by (repeat split; cbn; try lia; try discriminate; repeat constructor; lia).
  destruct (insert_all_valid 1 [mkStreak [0] 0 201] (reg_empty 2) (rvalid_empty 1)) as [V Hi]; [repeat constructor|]. fold r in V, Hi.
  assert (Ecs : region_coords r = Some cs) by (vm_compute; reflexivity).
  assert (Hin : forall c, inr 1 r c -> in_box b c /\ near_box ex_stencil b c).
  { intros c [Hc H]. apply Hi in H; auto. destruct H as [H|(s & Hs' & H)]; [exfalso; eapply (rin_empty 1); eauto|]. destruct Hs' as [<-|[]].
    destruct H as (x & -> & Hx). cbn [s_pre s_x s_e app] in *. assert (in_box b [0; x]) by (unfold in_box, b, inside; cbn; lia).
    split; [assumption|]. apply (ex_near b 0 x 0 0 1 201); auto; lia. }
  split; [exact Hs|]. split; [reflexivity|]. split; [intros ? ? ?; reflexivity|]. split; [constructor|]. split; [constructor|].
  split; [exact V|]. split; [exact Ecs|]. split; [reflexivity|]. split; [exact Hin|]. split.
  { split; [reflexivity|]. vm_compute. reflexivity. }
  split; [reflexivity|]. intros nano order Hord.
  destruct (C177_large_regions_skipped Z [true; true] true b [1; 201] ex_stencil (fun _ _ _ => 1) (cg_make b 0 9 [1; 201]) (cg_make b 0 9 [1; 201]) (fun _ => 0) (fun _ => 0) 1 r cs nano order)
    as (coords & l & E1 & E2 & H); auto; try (apply creach_make); try (intros; now apply ex_make_get).
  - intros ? ? ?; reflexivity.
  - exists coords, l. split; [exact E1|]. split; [exact E2|]. apply H. left. vm_compute. reflexivity.
Qed.
Print Assumptions C177_large_regions_refuted.

(** Refuted: updates which build on the cell's former content are performed
    512 times. *)
Lemma accumulate_run order : forall v, Forall (fun k => 0 <= k) order ->
  run_threads [true; true] ex_stencil (fun _ _ w => w + 1) (mkBox [0; 0] [1; 1]) 0 [0] 9 [0; 0] 1 order [v] = Some [v + Z.of_nat (count_occ Z.eq_dec order 0)].
Proof.
  induction order as [|k order IH]; intros v H; [cbn; now rewrite Z.add_0_r|]. inversion H as [|? ? H1 H2]; subst. cbn [run_threads count_occ].
  destruct (Z.eq_dec k 0) as [->|Hk].
  - assert (E : update_thread [true; true] ex_stencil (fun _ _ w => w + 1) (mkBox [0; 0] [1; 1]) 0 [0] 9 [0; 0] 1 0 [v] = Some [v + 1]) by (cbv -[Z.add]; reflexivity).
    rewrite E. cbn [obind]. rewrite IH by exact H2. do 2 f_equal. lia.
  - unfold update_thread at 1. rewrite Z.geb_leb. destruct (Z.leb_spec 1 k); [|lia]. cbn [obind]. now apply IH.
Qed.

Lemma launch_count grid block : 1 <= grid -> count_occ Z.eq_dec (kernel_threads grid block) 0 = block.
Proof.
  intros Hg. unfold kernel_threads. rewrite zrange_cons by lia. cbn [flat_map]. rewrite count_occ_app.
  assert (H1 : count_occ Z.eq_dec (repeat 0 block) 0 = block) by (apply count_occ_repeat_eq; reflexivity).
  rewrite H1. rewrite (proj1 (count_occ_not_In Z.eq_dec _ 0)); [lia|]. intros Hi. apply in_flat_map in Hi. destruct Hi as (x & Hx & Hr). apply repeat_spec in Hr. apply zrange_in in Hx. lia.
Qed.

Theorem C177_accumulating_refuted : exists b r (upd : nat -> list Z -> Z -> Z) coords,
  setup_ok [true; true] true b [1; 1] /\ rvalid 1 r /\ region_coords r = Some [[0; 0]] /\ (forall c, inr 1 r c -> in_box b c /\ near_box ex_stencil b c) /\
  cuda_region 2 [[0; 0]] = Some coords /\ (forall nano vs v, upd nano vs v = v + 1) /\
  let g := cg_make b 0 9 [1; 1] in
  forall order, launch_order kernel_grid kernel_block order ->
    exists l, run_threads [true; true] ex_stencil upd b 0 (cg_cells g) (cg_store g) coords 1 order (cg_cells g) = Some l /\
      cg_get [true; true] true (cg_with g l) [0; 0] = Some 512.
Proof.
  set (b := mkBox [0; 0] [1; 1]). exists b, (insert_all (reg_empty 2) [mkStreak [0] 0 1]), (fun _ _ w => w + 1), [0; 0].
  destruct (insert_all_valid 1 [mkStreak [0] 0 1] (reg_empty 2) (rvalid_empty 1)) as [V Hi]; [repeat constructor|].
  split; [repeat split; cbn; try lia; try discriminate; repeat constructor; lia|]. split; [exact V|]. split; [reflexivity|]. split.
  { intros c [Hc H]. apply Hi in H; auto. destruct H as [H|(s & Hs' & H)]; [exfalso; eapply (rin_empty 1); eauto|]. destruct Hs' as [<-|[]].
    destruct H as (x & -> & Hx). cbn [s_pre s_x s_e app] in *. assert (in_box b [0; x]) by (unfold in_box, b, inside; cbn; lia).
    split; [assumption|]. apply (ex_near b 0 x 0 0 1 1); auto; lia. }
  split; [reflexivity|]. split; [reflexivity|]. intros g order Hord. exists [512]. split; [|reflexivity].
  assert (Hc : count_occ Z.eq_dec order 0 = kernel_block).
  { rewrite <- (launch_count kernel_grid kernel_block) by (unfold kernel_grid; lia). symmetry. apply Permutation_count_occ. exact Hord. }
  change (cg_cells g) with [0]. change (cg_store g) with 9. rewrite accumulate_run.
  - rewrite Hc. reflexivity.
  - apply Forall_forall. intros k Hk. apply (Permutation_in k (Permutation_sym Hord)) in Hk. apply kernel_threads_in in Hk; [lia|unfold kernel_block; lia].
Qed.
Print Assumptions C177_accumulating_refuted.

(** The sum of a cell's neighbors on a torus of 3x3 cells for two cells. *)
Example C176_example : let b := mkBox [0; 0] [3; 3] in let t := [true; true] in
  let r := insert_all (reg_empty 2) [mkStreak [0] 0 1; mkStreak [2] 1 2] in
  let upd := (fun (_ : nat) vs (_ : Z) => fold_right Z.add 0 vs) in
  exists old, cg_ops t true (cg_make b 1 0 [3; 3]) [GSet [0; 2] 5; GSet [2; 0] 7] = Some old /\
  let new := cg_make b 0 0 [3; 3] in
  region_coords r = Some [[0; 0]; [2; 1]] /\ repeatable upd /\ (forall c, inr 1 r c -> in_box b c /\ near_box ex_stencil b c) /\
  forall order, launch_order 200 512 order ->
  exists coords l, cuda_region 2 [[0; 0]; [2; 1]] = Some coords /\
    run_threads t ex_stencil upd b 0 (cg_cells old) (cg_store old) coords 2 order (cg_cells new) = Some l /\
    cg_get t true (cg_with new l) [0; 0] = Some 15 /\ cg_get t true (cg_with new l) [2; 1] = Some 11 /\ cg_get t true (cg_with new l) [1; 1] = Some 0.
Proof.
  intros b t r upd. eexists. split; [vm_compute; reflexivity|]. set (old := mkCGrid _ _ _ _ _). intros new. split; [reflexivity|]. split; [intros ? ? ?; reflexivity|].
  destruct (insert_all_valid 1 [mkStreak [0] 0 1; mkStreak [2] 1 2] (reg_empty 2) (rvalid_empty 1)) as [V Hi]; [repeat constructor|]. fold r in V, Hi.
  assert (Hs : setup_ok t true b [3; 3]) by (repeat split; cbn; try lia; try discriminate; repeat constructor; lia).
  assert (Hin : forall c, inr 1 r c -> in_box b c /\ near_box ex_stencil b c).
  { intros c [Hc H]. apply Hi in H; auto. destruct H as [H|(s & Hs' & H)]; [exfalso; eapply (rin_empty 1); eauto|]. destruct Hs' as [<-|[<-|[]]];
      destruct H as (x & -> & Hx); cbn [s_pre s_x s_e app] in *; (split; [unfold in_box, b, inside; cbn; lia|]).
    - apply (ex_near b 0 x 0 0 3 3); auto; try lia. unfold in_box, b, inside; cbn; lia.
    - apply (ex_near b 2 x 0 0 3 3); auto; try lia. unfold in_box, b, inside; cbn; lia. }
  split; [exact Hin|]. intros order Hord.
  assert (Hold : cg_reach t true b [3; 3] old).
  { assert (exists g1, cg_op t true (cg_make b 1 0 [3; 3]) (GSet [0; 2] 5) = Some g1 /\ cg_op t true g1 (GSet [2; 0] 7) = Some old) as (g1 & E1 & E2)
      by (eexists; split; vm_compute; reflexivity).
    apply (creach_op t true b [3; 3] g1 (GSet [2; 0] 7)); [apply (creach_op t true b [3; 3] _ (GSet [0; 2] 5) _ (creach_make t true b [3; 3] 1 0))| |exact E2]; [|exact E1|];
      apply box_den; auto; unfold in_box, b, inside; cbn; lia. }
  destruct (C176_kernel Z t true b [3; 3] ex_stencil upd old new
     (fun c => nth (Z.to_nat (to_index c [3; 3])) [1; 1; 5; 1; 1; 1; 7; 1; 1] 0) (fun _ => 0) 1 r [[0; 0]; [2; 1]] 0 order) as (coords & l & E1 & E2 & H1 & H2); auto.
  - intros ? ? ?; reflexivity.
  - constructor.
  - clear Hord. intros c Hc. destruct c as [|y [|x [|]]]; try (exfalso; cbn in Hc; tauto). destruct Hc as (Hy & Hx & _). cbn in Hy, Hx.
    assert (y = 0 \/ y = 1 \/ y = 2) as [->|[->| ->]] by lia; assert (x = 0 \/ x = 1 \/ x = 2) as [->|[->| ->]] by lia; reflexivity.
  - intros c Hc. now apply ex_make_get.
  - cbn; lia.
  - exists coords, l. split; [exact E1|]. split; [exact E2|]. split; [|split].
    + rewrite H1 by (split; reflexivity). reflexivity.
    + rewrite H1 by (split; reflexivity). reflexivity.
    + apply H2; [unfold in_box, b, inside; cbn; lia|]. intros [_ H]. discriminate.
Qed.
