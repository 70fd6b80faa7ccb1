(** Properties of Grid and DisplacedGrid. *)
From Verif Require Import Base ListFacts RegionSpec RegionModel RegionRep RegionIterModel RegionStreaks RegionOpsModel HaloSpec
  RegionIter RegionOps StripingFacts CoordModel CoordSpec CoordFacts TopologyFacts PatchModel ConfigFacts GridModel GridSpec GridFacts DisplacedFacts GridReach.

(** ** C35 *)

(** Whatever has been written to a Grid, single cells, Streaks or the edge: a
    read yields what was written last to the place the coordinate denotes.
    Coordinates may be up to one period outside. *)
Theorem C35_grid_reads_back : forall C t dim (dflt edge : C) ops,
  dim <> [] -> length t = length dim -> Forall (fun n => 0 < n) dim ->
  Forall (access_ok (close_by dim) (close_by dim)) ops ->
  exists g, grid_ops t (grid_make dim dflt edge) ops = Some g /\ g_dim g = dim /\
    g_edge g = contents (denotes t dim) dflt edge ops None /\
    (forall c, close_by dim c -> grid_get t g c = Some (contents (denotes t dim) dflt edge ops (denotes t dim c))) /\
    forall s, s_x s <= s_e s -> Forall (close_by dim) (streak_coords s) ->
      grid_get_streak t g s = Some (map (fun c => contents (denotes t dim) dflt edge ops (denotes t dim c)) (streak_coords s)).
Proof.
  intros C t dim dflt edge ops Hn Hl Hp Hops.
  destruct (rep_ops t dim Hl Hp Hn ops _ _ (rep_make t dim Hl Hp dflt edge) Hops) as (g & E & R). exists g. split; [exact E|].
  split; [apply R|]. split; [apply R|]. split.
  - intros c Hc. now rewrite (rep_get t dim Hl Hp g _ c R Hc).
  - intros s Hs Hc. now rewrite (rep_get_streak t dim Hl Hp Hn g _ s R Hs Hc).
Qed.
Print Assumptions C35_grid_reads_back.

(** A 4x3 grid which wraps along x only. *)
Example C35_example :
  let ops := [GSet [1; 5] 10; GSetStreak (mkStreak [2] 3 6) [20; 21; 22]; GSetEdge 30; GSet [-1; 0] 31; GSet [1; 1] 11]%Z in
  let t := [false; true] in
  Forall (access_ok (close_by [3; 4]) (close_by [3; 4])) ops /\
  exists g, grid_ops t (grid_make [3; 4] 0 1) ops = Some g /\
    grid_get t g [1; -3] = Some 11 /\ grid_get t g [2; 1] = Some 22 /\ grid_get t g [3; 2] = Some 31 /\ grid_get t g [0; 0] = Some 0.
Proof.
  split.
  - repeat constructor; cbn; try lia; repeat constructor; cbn; lia.
  - eexists. split; [vm_compute; reflexivity|]. repeat split; vm_compute; reflexivity.
Qed.

(** ** C36 *)

(** The same for a DisplacedGrid, whose coordinates are relative to its box. A
    topologically correct one obeys the topology of the whole space, single
    cells may be addressed via any coordinate which the topology takes into
    the box, Streaks have to be inside of the box. *)
Theorem C36_displaced_reads_back : forall C t correct b topo (dflt edge : C) ops,
  setup_ok t correct b topo ->
  Forall (access_ok (reachable_coord t correct b topo) (reachable_in_streak correct b)) ops ->
  let f := contents (ddenotes t correct b topo) dflt edge ops in
  exists d, dg_ops t correct (dg_make b dflt edge topo) ops = Some d /\ dg_box d = b /\
    (forall c, reachable_coord t correct b topo c -> dg_get t correct d c = Some (f (ddenotes t correct b topo c))) /\
    forall s, s_x s <= s_e s -> Forall (reachable_in_streak correct b) (streak_coords s) ->
      dg_get_streak t d s = Some (map (fun c => f (ddenotes t correct b topo c)) (streak_coords s)).
Proof.
  intros C t correct b topo dflt edge ops Hs Hops f.
  destruct (drep_ops t correct b topo Hs ops _ _ (drep_make t correct b topo Hs dflt edge) Hops) as (d & E & R). exists d. split; [exact E|].
  split; [|split].
  - destruct R as (H1 & _ & H3 & _). unfold dg_box. rewrite H1, H3. now destruct b.
  - intros c Hc. now rewrite (drep_get t correct b topo Hs d _ c R Hc).
  - intros s Hx Hc. now rewrite (drep_get_streak t correct b topo Hs d _ s R Hx Hc).
Qed.
Print Assumptions C36_displaced_reads_back.

(** Places are told apart by the coordinate in the space. *)
Theorem C36_places_distinct : forall t correct b topo a c, setup_ok t correct b topo -> in_box b a -> in_box b c ->
  ddenotes t correct b topo a = ddenotes t correct b topo c -> a = c.
Proof.
  intros t correct b topo a c (Hn & Ho & Hl & Hp & Hle) Ha Hc E. unfold in_box in Ha, Hc.
  apply in_box_zsub in Ha; [|lia]. apply in_box_zsub in Hc; [|lia]. destruct Ha as [La Ha], Hc as [Lc Hc].
  unfold ddenotes in E.
  assert (E' : zsub a (b_origin b) = zsub c (b_origin b)).
  { destruct (bool_cases correct) as [Ec|Ec]; rewrite Ec in E.
    - specialize (Hle Ec). pose proof (forall2_length _ _ _ Hle). rewrite !denotes_self in E; try congruence; try lia;
        try (eapply forall2_le_pos; eauto; fail); eapply in_grid_le; eauto.
    - rewrite !denotes_self in E; auto; try lia. congruence. }
  apply (sub_inj (b_origin b) a c); auto; lia.
Qed.
Print Assumptions C36_places_distinct.

(** A part of a torus of 10x10 cells around its origin. *)
Example C36_example :
  let b := mkBox [8; 8] [4; 5] in let t := [true; true] in
  let ops := [GSet [8; 8] 1; GSet [21; 19] 2; GSetStreak (mkStreak [11] 9 12) [3; 4; 5]; GSet [9; 2] 6]%Z in
  setup_ok t true b [10; 10] /\
  Forall (access_ok (reachable_coord t true b [10; 10]) (reachable_in_streak true b)) ops /\
  exists d, dg_ops t true (dg_make b 0 (-1) [10; 10]) ops = Some d /\
    dg_get t true d [11; 9] = Some 3 /\ dg_get t true d [1; 10] = Some 4 /\ dg_get t true d [9; 12] = Some 6 /\ dg_get t true d [18; -2] = Some 1.
Proof.
  split; [|split].
  - repeat split; cbn; try lia; try discriminate; repeat constructor; lia.
  - repeat apply Forall_cons; try apply Forall_nil; cbn [access_ok reachable_coord reachable_in_streak].
    + split; [reflexivity|]. split; [cbn; lia|]. intros c' H. vm_compute in H. injection H as <-. cbn; lia.
    + split; [reflexivity|]. split; [cbn; lia|]. intros c' H. vm_compute in H. injection H as <-. cbn; lia.
    + split; [cbn; lia|]. split; [|reflexivity]. repeat apply Forall_cons; try apply Forall_nil; cbn; lia.
    + split; [reflexivity|]. split; [cbn; lia|]. intros c' H. vm_compute in H. injection H as <-. cbn; lia.
  - eexists. split; [vm_compute; reflexivity|]. repeat split; vm_compute; reflexivity.
Qed.

(** ** C37 *)

(** Saving a region of one grid and loading it into another one copies exactly
    the cells of the region. The grids may have different boxes, topologies
    and offsets; [off1] and [off2] displace the region. The buffer contains
    one cell per coordinate in the order of the region. *)
Theorem C37_region_transfer : forall C n t1 k1 b1 topo1 t2 k2 b2 topo2 (src dst : dgrid C) r off1 off2,
  length t1 = S n -> length t2 = S n -> setup_ok t1 k1 b1 topo1 -> setup_ok t2 k2 b2 topo2 ->
  dg_reach t1 k1 b1 topo1 src -> dg_reach t2 k2 b2 topo2 dst ->
  rvalid n r -> length off1 = S n -> length off2 = S n ->
  transfer_ok t1 k1 b1 topo1 (inr n r) off1 -> transfer_ok t2 k2 b2 topo2 (inr n r) off2 ->
  exists cs buf dst', region_coords r = Some cs /\ dg_save t1 k1 src r off1 = Some buf /\ dg_load t2 k2 dst r off2 buf = Some dst' /\
    Forall2 (fun c v => dg_get t1 k1 src (zadd c off1) = Some v) cs buf /\
    (forall c, inr n r c -> dg_get t2 k2 dst' (zadd c off2) = dg_get t1 k1 src (zadd c off1)) /\
    (forall c, reachable_coord t2 k2 b2 topo2 c ->
       (forall c0, inr n r c0 -> ddenotes t2 k2 b2 topo2 (zadd c0 off2) <> ddenotes t2 k2 b2 topo2 c) ->
       dg_get t2 k2 dst' c = dg_get t2 k2 dst c) /\
    g_edge (d_grid dst') = g_edge (d_grid dst).
Proof.
  intros C n t1 k1 b1 topo1 t2 k2 b2 topo2 src dst r off1 off2 Ht1 Ht2 Hs1 Hs2 Hr1 Hr2 Hv Ho1 Ho2 Tr1 Tr2.
  destruct (dg_reach_rep _ _ _ _ _ Hs1 Hr1) as [f1 F1]. destruct (dg_reach_rep _ _ _ _ _ Hs2 Hr2) as [f2 F2].
  destruct (region_coords_nodup n r Hv) as (cs & Ecs & Hcs & Hnd).
  destruct (drep_save t1 k1 b1 topo1 Hs1 n Ht1 r Hv off1 Ho1 src f1 F1 Tr1) as (cs' & Ecs' & Esave). rewrite Ecs in Ecs'. injection Ecs' as <-.
  destruct (drep_load t2 k2 b2 topo2 Hs2 n Ht2 r Hv off2 Ho2 dst f2 (map (fun c => f1 (ddenotes t1 k1 b1 topo1 (zadd c off1))) cs) cs F2 Tr2 Ecs) as (dst' & Eload & F2').
  { rewrite map_length. apply le_n. }
  exists cs, (map (fun c => f1 (ddenotes t1 k1 b1 topo1 (zadd c off1))) cs), dst'. split; [exact Ecs|]. split; [exact Esave|]. split; [exact Eload|].
  assert (Hget1 : forall c, inr n r c -> dg_get t1 k1 src (zadd c off1) = Some (f1 (ddenotes t1 k1 b1 topo1 (zadd c off1)))).
  { intros c Hc. apply (drep_get t1 k1 b1 topo1 Hs1 src f1 _ F1). apply (transfer_both t1 k1 b1 topo1 (inr n r) off1 n c); auto; apply Hc. }
  assert (Hinj := transfer_inj t2 k2 b2 topo2 Hs2 n Ht2 r off2 Ho2 Tr2).
  destruct (last_written_map (fun c => ddenotes t2 k2 b2 topo2 (zadd c off2)) (fun c => f1 (ddenotes t1 k1 b1 topo1 (zadd c off1))) f2 cs Hnd) as [Hat Hother].
  { intros a c Ha Hc. apply Hcs in Ha. apply Hcs in Hc. now apply Hinj. }
  split; [|split; [|split]].
  - clear - Hget1 Hcs. assert (H : forall c, In c cs -> inr n r c) by (intros; now apply Hcs). clear Hcs.
    induction cs as [|c cs IH]; [constructor|]. cbn [map]. constructor; [apply Hget1, H; now left|]. apply IH. intros; apply H; now right.
  - intros c Hc. rewrite (drep_get t2 k2 b2 topo2 Hs2 dst' _ _ F2') by (apply (transfer_both t2 k2 b2 topo2 (inr n r) off2 n c); auto; apply Hc).
    rewrite Hget1 by exact Hc. f_equal. apply (Hat c). now apply Hcs.
  - intros c Hc Hne. rewrite (drep_get t2 k2 b2 topo2 Hs2 dst' _ _ F2' Hc), (drep_get t2 k2 b2 topo2 Hs2 dst _ _ F2 Hc). f_equal. apply Hother.
    intros c0 Hc0. apply Hne. now apply Hcs.
  - destruct F2' as (_ & _ & _ & _ & E' & _). destruct F2 as (_ & _ & _ & _ & E & _). rewrite E', E. apply Hother.
    intros c Hc. apply Hcs in Hc. apply (transfer_both t2 k2 b2 topo2 (inr n r) off2 n c); auto; apply Hc.
Qed.
Print Assumptions C37_region_transfer.

(** The same from Grid to Grid. *)
Theorem C37_grid_transfer : forall C n t1 dim1 t2 dim2 (src dst : vgrid C) r off1 off2,
  length t1 = S n -> length t2 = S n -> length dim1 = S n -> length dim2 = S n ->
  Forall (fun k => 0 < k) dim1 -> Forall (fun k => 0 < k) dim2 ->
  grid_reach t1 dim1 src -> grid_reach t2 dim2 dst ->
  rvalid n r -> length off1 = S n -> length off2 = S n ->
  (forall c, inr n r c -> in_grid dim1 (zadd c off1)) -> (forall c, inr n r c -> in_grid dim2 (zadd c off2)) ->
  exists cs buf dst', region_coords r = Some cs /\ grid_save t1 src r off1 = Some buf /\ grid_load t2 dst r off2 buf = Some dst' /\
    Forall2 (fun c v => grid_get t1 src (zadd c off1) = Some v) cs buf /\
    (forall c, inr n r c -> grid_get t2 dst' (zadd c off2) = grid_get t1 src (zadd c off1)) /\
    (forall c, in_grid dim2 c -> (forall c0, inr n r c0 -> zadd c0 off2 <> c) -> grid_get t2 dst' c = grid_get t2 dst c) /\
    g_edge dst' = g_edge dst.
Proof.
  intros C n t1 dim1 t2 dim2 src dst r off1 off2 Ht1 Ht2 Hd1 Hd2 Hp1 Hp2 Hr1 Hr2 Hv Ho1 Ho2 I1 I2.
  assert (N1 : dim1 <> []) by (intros ->; discriminate). assert (N2 : dim2 <> []) by (intros ->; discriminate).
  destruct (grid_reach_rep t1 dim1 src N1 ltac:(lia) Hp1 Hr1) as [f1 F1]. destruct (grid_reach_rep t2 dim2 dst N2 ltac:(lia) Hp2 Hr2) as [f2 F2].
  pose proof (grid_setup t1 dim1 N1 ltac:(lia) Hp1) as Hs1. pose proof (grid_setup t2 dim2 N2 ltac:(lia) Hp2) as Hs2.
  destruct (region_coords_nodup n r Hv) as (cs & Ecs & Hcs & Hnd).
  assert (D1 : drep (mkBox (zeros dim1) dim1) dim1 (mkDGrid src (zeros dim1) dim1) f1) by (split; [reflexivity|split; [reflexivity|exact F1]]).
  assert (D2 : drep (mkBox (zeros dim2) dim2) dim2 (mkDGrid dst (zeros dim2) dim2) f2) by (split; [reflexivity|split; [reflexivity|exact F2]]).
  pose proof (grid_transfer_ok t1 dim1 _ off1 I1) as T1. pose proof (grid_transfer_ok t2 dim2 _ off2 I2) as T2.
  destruct (drep_save t1 false _ dim1 Hs1 n Ht1 r Hv off1 Ho1 _ f1 D1 T1) as (cs' & Ecs' & Esave). rewrite Ecs in Ecs'. injection Ecs' as <-.
  rewrite <- grid_save_displaced in Esave by lia.
  assert (Den : forall t dim off c, length t = S n -> length dim = S n -> length off = S n -> allpos dim -> inr n r c -> in_grid dim (zadd c off) ->
                  ddenotes t false (mkBox (zeros dim) dim) dim (zadd c off) = Some (zadd c off)).
  { intros t dim off c K1 K2 K3 K4 [K5 _] K6. unfold ddenotes. cbn [b_origin b_dim]. rewrite zsub_zeros by (rewrite zadd_length'; lia).
    apply denotes_self; auto; lia. }
  set (buf := map (fun c => f1 (ddenotes t1 false (mkBox (zeros dim1) dim1) dim1 (zadd c off1))) cs) in *.
  destruct (drep_load t2 false _ dim2 Hs2 n Ht2 r Hv off2 Ho2 _ f2 buf cs D2 T2 Ecs) as (d' & Eload & F2').
  { unfold buf. rewrite map_length. apply le_n. }
  rewrite grid_load_displaced in Eload by lia. destruct (grid_load t2 dst r off2 buf) as [dst'|] eqn:El; [|discriminate].
  cbn in Eload. injection Eload as <-. destruct F2' as (_ & _ & F2'). cbn in F2'.
  exists cs, buf, dst'. split; [exact Ecs|]. split; [exact Esave|]. split; [exact El|].
  assert (Hget1 : forall c, inr n r c -> grid_get t1 src (zadd c off1) = Some (f1 (Some (zadd c off1)))).
  { intros c Hc. rewrite (rep_get t1 dim1 ltac:(lia) Hp1 src f1 _ F1) by (apply in_grid_close; auto). rewrite denotes_self; auto; lia. }
  destruct (last_written_map (fun c => ddenotes t2 false (mkBox (zeros dim2) dim2) dim2 (zadd c off2))
              (fun c => f1 (ddenotes t1 false (mkBox (zeros dim1) dim1) dim1 (zadd c off1))) f2 cs Hnd) as [Hat Hother].
  { intros a c Ha Hc. apply Hcs in Ha. apply Hcs in Hc. now apply (transfer_inj t2 false _ dim2 Hs2 n Ht2 r off2 Ho2 T2). }
  split; [|split; [|split]].
  - unfold buf. assert (H : forall c, In c cs -> inr n r c) by (intros; now apply Hcs). clear - Hget1 H Den I1 Ht1 Hd1 Ho1 Hp1.
    induction cs as [|c cs IH]; [constructor|]. cbn [map]. constructor.
    + rewrite Den; auto; [apply Hget1, H; now left|apply H; now left|apply I1, H; now left].
    + apply IH. intros; apply H; now right.
  - intros c Hc. rewrite (rep_get t2 dim2 ltac:(lia) Hp2 dst' _ _ F2') by (apply in_grid_close; auto). rewrite Hget1 by exact Hc.
    assert (E2 : denotes t2 dim2 (zadd c off2) = ddenotes t2 false (mkBox (zeros dim2) dim2) dim2 (zadd c off2)).
    { rewrite Den by auto. apply denotes_self; auto; lia. }
    rewrite E2. f_equal. unfold buf. rewrite Hat by now apply Hcs. now rewrite Den by auto.
  - intros c Hc Hne. rewrite (rep_get t2 dim2 ltac:(lia) Hp2 dst' _ _ F2'), (rep_get t2 dim2 ltac:(lia) Hp2 dst _ _ F2) by (apply in_grid_close; auto).
    f_equal. apply Hother. intros c0 Hc0. apply Hcs in Hc0. rewrite Den by auto. rewrite denotes_self by (auto; lia). intros E. injection E. now apply Hne.
  - destruct F2' as (_ & _ & E' & _). destruct F2 as (_ & _ & E & _). rewrite E', E. apply Hother. intros c Hc. apply Hcs in Hc. now rewrite Den by auto.
Qed.
Print Assumptions C37_grid_transfer.

(** From a part of a torus of 10x10 cells, which contains the corner, into a
    bigger grid. The last Streak lies on another period of the torus. *)
Example C37_example :
  let r := insert_all (reg_empty 2) [mkStreak [9] 8 10; mkStreak [10] 9 11; mkStreak [1] 2 3] in
  let t := [true; true] in let b1 := mkBox [8; 8] [5; 5] in let b2 := mkBox [-3; -3] [20; 20] in
  rvalid 1 r /\ setup_ok t true b1 [10; 10] /\ setup_ok t false b2 [0; 0] /\
  transfer_ok t true b1 [10; 10] (inr 1 r) [0; 0] /\ transfer_ok t false b2 [0; 0] (inr 1 r) [1; 1] /\
  exists src dst dst' buf,
    dg_ops t true (dg_make b1 0 (-1) [10; 10]) [GSet [9; 9] 1; GSet [11; 12] 2; GSet [10; 10] 3] = Some src /\
    dg_ops t false (dg_make b2 5 (-1) [0; 0]) [GSet [10; 10] 4] = Some dst /\
    dg_save t true src r [0; 0] = Some buf /\ buf = [2; 0; 1; 0; 3] /\ dg_load t false dst r [1; 1] buf = Some dst' /\
    dg_get t false dst' [2; 3] = Some 2 /\ dg_get t false dst' [10; 10] = Some 1 /\ dg_get t false dst' [2; 4] = Some 5.
Proof.
  intros r t b1 b2.
  destruct (insert_all_valid 1 [mkStreak [9] 8 10; mkStreak [10] 9 11; mkStreak [1] 2 3] (reg_empty 2) (rvalid_empty 1)) as [V Hi]; [repeat constructor|].
  split; [exact V|].
  assert (Hin : forall c, inr 1 r c -> exists s, In s [mkStreak [9] 8 10; mkStreak [10] 9 11; mkStreak [1] 2 3] /\ in_streak s c).
  { intros c [Hc H]. apply Hi in H; auto. destruct H as [H|H]; [exfalso; eapply (rin_empty 1); eauto|exact H]. }
  split; [repeat split; cbn; try lia; try discriminate; repeat constructor; lia|].
  split; [repeat split; cbn; try lia; try discriminate; repeat constructor; lia|].
  split; [|split].
  - split.
    + exists [1; 1]. intros c Hc. destruct (Hin c Hc) as (s & [<-|[<-|[<-|[]]]] & x & -> & Hx); cbn in Hx; unfold in_box; cbn; lia.
    + intros c Hc. destruct (Hin c Hc) as (s & [<-|[<-|[<-|[]]]] & x & -> & Hx); cbn in Hx.
      * split; [cbn; lia|]. exists [1; x - 8]. split; [|cbn; lia]. cbn. split; [lia|]. split; [exists 0; reflexivity|]. split; [lia|]. split; [exists 0; lia|exact Logic.I].
      * split; [cbn; lia|]. exists [2; x - 8]. split; [|cbn; lia]. cbn. split; [lia|]. split; [exists 0; reflexivity|]. split; [lia|]. split; [exists 0; lia|exact Logic.I].
      * split; [cbn; lia|]. exists [3; x + 2]. split; [|cbn; lia]. cbn. split; [lia|]. split; [exists (-1); reflexivity|]. split; [lia|]. split; [exists (-1); lia|exact Logic.I].
  - intros c Hc. destruct (Hin c Hc) as (s & [<-|[<-|[<-|[]]]] & x & -> & Hx); cbn in Hx; unfold in_box; cbn; lia.
  - do 4 eexists. split; [vm_compute; reflexivity|]. split; [vm_compute; reflexivity|]. split; [vm_compute; reflexivity|].
    split; [vm_compute; reflexivity|]. split; [vm_compute; reflexivity|]. repeat split; vm_compute; reflexivity.
Qed.

(** ** C38 *)

(** Two Grids of the same dimensions compare equal exactly if their edge cells
    and all their cells are equal. *)
Theorem C38_grid_equality : forall C (ceq : C -> C -> bool) t dim (a b : vgrid C),
  (forall x y, ceq x y = true <-> x = y) ->
  dim <> [] -> length t = length dim -> Forall (fun n => 0 < n) dim -> grid_reach t dim a -> grid_reach t dim b ->
  (grid_eqb ceq a b = true <-> g_edge a = g_edge b /\ forall c, in_grid dim c -> grid_get t a c = grid_get t b c).
Proof.
  intros C ceq t dim a b Hceq Hn Hl Hp Ha Hb.
  destruct (grid_reach_rep t dim a Hn Hl Hp Ha) as [fa Fa]. destruct (grid_reach_rep t dim b Hn Hl Hp Hb) as [fb Fb].
  unfold grid_eqb. assert (Hz : box_eqb (grid_box a) (mkBox (map (fun _ => 0) (g_dim a)) (map (fun _ => 0) (g_dim a))) = false).
  { destruct (box_eqb _ _) eqn:E; [|reflexivity]. apply box_eqb_spec in E. unfold grid_box in E. injection E as E. destruct Fa as (Fd & _). rewrite Fd in E.
    destruct dim as [|m dim]; [congruence|]. inversion Hp; subst. cbn in E. injection E. lia. }
  rewrite Hz. cbn [andb]. rewrite andb_true_iff, Hceq, (cells_eqb_spec ceq Hceq).
  assert (Hget : forall (g : vgrid C) f c, rep dim g f -> in_grid dim c -> grid_get t g c = vec_get (g_cells g) (to_index c dim)).
  { intros g f c Hr Hc. rewrite (rep_get t dim Hl Hp g f c Hr) by now apply in_grid_close. rewrite denotes_self by auto. symmetry. apply Hr. exact Hc. }
  split.
  - intros [E1 E2]. split; [exact E1|]. intros c Hc. rewrite (Hget a fa), (Hget b fb), E2 by auto. reflexivity.
  - intros [E1 E2]. split; [exact E1|]. destruct Fa as (A1 & A2 & A3 & A4). destruct Fb as (B1 & B2 & B3 & B4).
    apply nth_error_ext; [lia|]. intros i Hi. pose proof (from_index_in dim Hp (Z.of_nat i) ltac:(lia)) as Hc. pose proof (to_from dim Hp (Z.of_nat i) ltac:(lia)) as Ei.
      set (c := from_index dim (Z.of_nat i)) in *. specialize (E2 c Hc).
      rewrite (Hget a fa), (Hget b fb) in E2 by (auto; repeat split; auto). unfold vec_get in E2. rewrite Ei, Nat2Z.id in E2.
      destruct (Z.ltb_spec (Z.of_nat i) 0); [lia|]. exact E2.
Qed.
Print Assumptions C38_grid_equality.

(** Comparing via the interface GridBase, any kinds of grids: equal exactly if
    boxes, edges and all cells are. *)
Theorem C38_view_equality : forall C (ceq : C -> C -> bool) (a b : gview C) fuel,
  (forall x y, ceq x y = true <-> x = y) -> view_of a -> view_of b ->
  (Z.to_nat (prod (b_dim (v_box a))) <= fuel)%nat ->
  exists r, view_eqb ceq fuel a b = Some r /\
    (r = true <-> v_box a = v_box b /\ v_edge a = v_edge b /\ forall c, in_box (v_box a) c -> v_get a c = v_get b c).
Proof.
  intros C ceq a b fuel Hceq Ha Hb Hf. destruct (view_of_box a Ha) as ((n & Hra) & _ & _ & Ga). destruct (view_of_box b Hb) as (_ & _ & _ & Gb).
  unfold view_eqb. destruct (ceq (v_edge a) (v_edge b)) eqn:E1; cbn [negb].
  - apply Hceq in E1. destruct (box_eqb (v_box a) (v_box b)) eqn:E2; cbn [negb].
    + apply box_eqb_spec in E2. rewrite (box_coords_spec (v_box a) n fuel Hra Hf). cbn [obind].
      destruct (views_agree_spec ceq Hceq a b (box_list (v_box a))) as (r & Er & Hr).
      { intros c Hc. apply (box_list_in _ n Hra) in Hc. split; [now apply Ga|]. apply Gb. now rewrite <- E2. }
      exists r. split; [exact Er|]. rewrite Hr. split.
      * intros H. split; [exact E2|]. split; [exact E1|]. intros c Hc. apply H. now apply (box_list_in _ n Hra).
      * intros (_ & _ & H) c Hc. apply H. now apply (box_list_in _ n Hra).
    + exists false. split; [reflexivity|]. split; [discriminate|]. intros (E & _). apply box_eqb_spec in E. congruence.
  - exists false. split; [reflexivity|]. split; [discriminate|]. intros (_ & E & _). apply Hceq in E. congruence.
Qed.
Print Assumptions C38_view_equality.

Example C38_example :
  let t := [true; false] in
  exists a b, grid_ops t (grid_make [2; 3] 0 9) [GSet [1; 2] 5] = Some a /\ grid_ops t (grid_make [2; 3] 0 9) [GSet [-1; 2] 5; GSet [0; 0] 0] = Some b /\
    grid_eqb Z.eqb a b = true /\ grid_eqb Z.eqb a (grid_make [2; 3] 0 9) = false /\
    view_eqb Z.eqb 6 (grid_view t a) (dg_view t false (mkDGrid b [0; 0] [0; 0])) = Some true /\
    view_eqb Z.eqb 6 (grid_view t a) (dg_view t false (mkDGrid b [0; 1] [0; 0])) = Some false.
Proof. do 2 eexists. split; [vm_compute; reflexivity|]. split; [vm_compute; reflexivity|]. repeat split; vm_compute; reflexivity. Qed.

(** ** C70 *)

(** Streaks are not subject to the topology: a topologically correct
    DisplacedGrid reads another cell via a Streak than via the coordinate. *)
Theorem C70_streak_wrap_refuted : exists t b topo d s c (v w : Z),
  setup_ok t true b topo /\ dg_reach t true b topo d /\ streak_coords s = [c] /\
  reachable_coord t true b topo c /\ dg_get t true d c = Some v /\ dg_get_streak t d s = Some [w] /\ v <> w.
Proof.
  exists [true], (mkBox [0] [8]), [10]. eexists. exists (mkStreak [] 10 11), [10], 7, 0.
  split; [repeat split; cbn; try lia; try discriminate; repeat constructor; lia|].
  assert (Hc : reachable_coord [true] true (mkBox [0] [8]) [10] [0]).
  { split; [reflexivity|]. split; [cbn; lia|]. intros c' H. vm_compute in H. injection H as <-. cbn. lia. }
  split; [apply (reach_op [true] true (mkBox [0] [8]) [10] (dg_make (mkBox [0] [8]) 0 (-1) [10]) (GSet [0] 7));
           [constructor|exact Hc|vm_compute; reflexivity]|].
  split; [reflexivity|]. split.
  { split; [reflexivity|]. split; [cbn; lia|]. intros c' H. vm_compute in H. injection H as <-. cbn. lia. }
  split; [vm_compute; reflexivity|]. split; [vm_compute; reflexivity|discriminate].
Qed.
Print Assumptions C70_streak_wrap_refuted.

(** ** C71 *)

(** Comparing two Grids ignores their dimensions, and comparing two empty Grids
    ignores their edge cells. *)
Theorem C71_grid_shape_refuted :
  (exists (a b : vgrid Z), grid_reach [true; true] [2; 3] a /\ grid_reach [true; true] [3; 2] b /\ grid_eqb Z.eqb a b = true /\
     g_dim a <> g_dim b /\ grid_get [true; true] a [1; 0] = Some 3 /\ grid_get [true; true] b [1; 0] = Some 2) /\
  (exists a b : vgrid Z, grid_eqb Z.eqb a b = true /\ g_dim a = g_dim b /\ g_edge a <> g_edge b).
Proof.
  split.
  - do 2 eexists. split; [|split; [|split; [|split; [|split]]]].
    + apply (greach_op _ _ (grid_make [2; 3] 3 0) (GSetStreak (mkStreak [0] 0 3) [0; 1; 2])); [constructor| |vm_compute; reflexivity].
      split; [cbn; lia|]. split; [|reflexivity]. repeat apply Forall_cons; try apply Forall_nil; cbn; lia.
    + eapply (greach_op _ _ _ (GSet [1; 0] 2)); [apply (greach_op _ _ (grid_make [3; 2] 3 0) (GSetStreak (mkStreak [0] 0 2) [0; 1])); [constructor| |]| |];
        [|vm_compute; reflexivity| |vm_compute; reflexivity].
      * split; [cbn; lia|]. split; [|reflexivity]. repeat apply Forall_cons; try apply Forall_nil; cbn; lia.
      * cbn. lia.
    + vm_compute. reflexivity.
    + discriminate.
    + vm_compute. reflexivity.
    + vm_compute. reflexivity.
  - exists (grid_make [0; 0] 0 1), (grid_make [0; 0] 0 2). split; [vm_compute; reflexivity|]. split; [reflexivity|discriminate].
Qed.
Print Assumptions C71_grid_shape_refuted.

(** ** C72 *)

(** A Grid made from any other grid has got the same edge and the same cells,
    moved to the origin. *)
Theorem C72_grid_copy : forall C t (dflt : C) (v : gview C) fuel, view_of v -> length t = length (b_dim (v_box v)) ->
  (Z.to_nat (prod (b_dim (v_box v))) <= fuel)%nat ->
  exists g, grid_of_view t dflt fuel v = Some g /\ g_dim g = b_dim (v_box v) /\ g_edge g = v_edge v /\
    forall c, in_box (v_box v) c -> grid_get t g (zsub c (b_origin (v_box v))) = v_get v c.
Proof.
  intros C t dflt v fuel Hv Ht Hf. destruct (view_of_box v Hv) as ((n & Hr) & Hp & Ho & Hg). unfold grid_of_view.
  rewrite (box_coords_spec (v_box v) n fuel Hr Hf). cbn [obind]. set (cs := box_list (v_box v)).
  assert (Hcs : forall c, In c cs <-> in_box (v_box v) c) by (apply (box_list_in _ n Hr)).
  assert (Hnd : NoDup cs) by (apply (sorted_lt_NoDup cs), (box_list_sorted _ n Hr)).
  set (val := fun c => match v_get v c with Some x => x | None => dflt end).
  assert (Hval : forall c, In c cs -> v_get v c = Some (val c)).
  { intros c Hc. apply Hcs in Hc. specialize (Hg c Hc). unfold val. destruct (v_get v c); congruence. }
  assert (Hf2 : Forall2 (fun c x => v_get v c = Some x) cs (map val cs)).
  { clear - Hval. induction cs as [|c cs IH]; [constructor|]. cbn [map]. constructor; [apply Hval; now left|]. apply IH. intros; apply Hval; now right. }
  rewrite (copy_cells_set t v cs _ _ Hf2). set (dim := b_dim (v_box v)) in *. set (org := b_origin (v_box v)) in *.
  assert (Hin : forall c, In c cs -> in_grid dim (zsub c org) /\ length c = length dim).
  { intros c Hc. apply Hcs in Hc. unfold in_box in Hc. fold org dim in Hc. apply in_box_zsub in Hc; [|exact Ho]. tauto. }
  assert (Hne : dim <> []). { destruct Hr as (_ & Hd & _). fold dim in Hd. intros E. rewrite E in Hd. discriminate. }
  destruct (rep_set_cells t dim Ht Hp (map (fun c => zsub c org) cs) (grid_make dim dflt (v_edge v)) (fresh dflt (v_edge v)) (map val cs)) as (g & E & R).
  { now apply rep_make with t. }
  { apply Forall_forall. intros c Hc. apply in_map_iff in Hc. destruct Hc as (c0 & <- & Hc0). apply in_grid_close; [exact Hp|]. now apply Hin. }
  { rewrite !map_length. apply le_n. }
  exists g. split; [exact E|]. rewrite map_map in R.
  destruct (last_written_map (fun c => denotes t dim (zsub c org)) val (fresh dflt (v_edge v)) cs Hnd) as [Hat Hother].
  { intros a c Ha Hc Ed. destruct (Hin a Ha) as [Ia La], (Hin c Hc) as [Ic Lc]. rewrite !denotes_self in Ed by auto. injection Ed as Ed.
    apply (sub_inj org a c); auto; lia. }
  split; [apply R|]. split.
  - destruct R as (_ & _ & R & _). rewrite R. rewrite Hother; [reflexivity|]. intros c Hc. destruct (Hin c Hc) as [Ic _]. now rewrite denotes_self by auto.
  - intros c Hc. apply Hcs in Hc. destruct (Hin c Hc) as [Ic Lc]. rewrite (rep_get t dim Ht Hp g _ _ R) by now apply in_grid_close.
    transitivity (Some (val c)); [f_equal; exact (Hat c Hc)|]. symmetry. now apply Hval.
Qed.
Print Assumptions C72_grid_copy.

Example C72_example :
  exists d g, dg_ops [true] true (dg_make (mkBox [8] [4]) 0 (-1) [10]) [GSet [1] 5; GSet [8] 6] = Some d /\
    grid_of_view [false] 0 4 (dg_view [true] true d) = Some g /\ g_cells g = [6; 0; 0; 5] /\ g_edge g = -1.
Proof. do 2 eexists. split; [vm_compute; reflexivity|]. split; [vm_compute; reflexivity|]. split; vm_compute; reflexivity. Qed.
