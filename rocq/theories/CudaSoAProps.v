(** CUDASoAGrid: threads for all cells (C229), the same as SoAGrid (C230), and
    what doesn't work (C231, C232). *)
From Coq Require Import Permutation.
From Verif Require Import Base ListFacts RegionSpec RegionModel RegionRep RegionIterModel RegionStreaks RegionOpsModel RegionOps HaloSpec CoordModel CoordSpec CoordFacts
  PatchModel GridModel GridSpec GridFacts DisplacedFacts SellFacts StencilModel UpdateModel UpdateFacts SoAModel SoASpec SoAFacts SoARep SoATransfer SoAReach SoAProps
  CudaSoAModel CudaSoASpec CudaSoAFacts CudaSoASame.

(** ** C229: launches *)

(** Both of the functions which choose a configuration for a kernel yield one
    with at most 512 threads per block. CUDA accepts it unless there are too
    many layers or rows. There is exactly one thread for each cell. *)
Theorem C229_launches : forall z y x block, 0 < z -> 0 < y -> 0 < x -> block = cu_block [z; y; x] \/ block = lfa_block [z; y; x] ->
  let grid := blocks [z; y; x] block in
  fold_right Z.mul 1 block <= 512 /\ (launchable grid block = true <-> z <= 65535 /\ y <= 262140) /\ NoDup (threads grid block) /\
  forall c, in_grid [z; y; x] c -> exists th, In th (threads grid block) /\ position block th = c /\
    forall th', In th' (threads grid block) -> position block th' = c -> th' = th.
Proof.
  intros z y x block Hz Hy Hx Hb grid. assert (Hs : suits [z; y; x] block) by (destruct Hb as [->| ->]; [apply cu_block_suits|apply lfa_block_suits]). clear Hb.
  destruct block as [|bz [|by_ [|bx [|]]]]; cbn [suits] in Hs; try contradiction. destruct Hs as (-> & H1 & H2 & H3 & H4).
  unfold grid, blocks. cbn [combine map fst snd]. destruct (round_up_spec z 1 ltac:(lia)) as [Z1 Z2]. destruct (round_up_spec y by_ H1) as [Y1 Y2]. destruct (round_up_spec x bx H2) as [X1 X2].
  set (nz := round_up z 1) in *. set (ny := round_up y by_) in *. set (nx := round_up x bx) in *. clearbody nz ny nx. clear grid. split; [cbn [fold_right]; nia|]. split; [|split; [apply threads_nodup|]].
  - unfold launchable. assert (0 < nx) by nia. assert (0 < ny) by nia. rewrite !andb_true_iff, !Z.ltb_lt, !Z.leb_le. split.
    + intros HL. split; [lia|]. destruct H4 as [->|]; lia.
    + intros [A B]. repeat split; try lia. destruct H4 as [->|]; nia.
  - intros c Hc. destruct c as [|c1 [|c2 [|c3 [|]]]]; cbn in Hc; try tauto. destruct (proj1 (position_cover nz ny nx 1 by_ bx [c1; c2; c3] ltac:(lia) H1 H2)) as (th & Hth & Ep).
    + exists c1, c2, c3. split; [reflexivity|]. repeat split; nia.
    + exists th. split; [exact Hth|]. split; [exact Ep|]. intros th' Hth' Ep'. apply (position_inj nz ny nx 1 by_ bx); auto. congruence.
Qed.
Print Assumptions C229_launches.

Example C229_example : cu_block [2; 9; 70] = [1; 4; 128] /\ blocks [2; 9; 70] [1; 4; 128] = [2; 3; 1] /\ launchable [2; 3; 1] [1; 4; 128] = true /\
  cu_block [1; 1; 40] = [1; 1; 64] /\ blocks [1; 1; 40] [1; 1; 64] = [1; 1; 1] /\ lfa_block [1; 1; 513] = [1; 1; 512] /\ blocks [1; 1; 513] [1; 1; 512] = [1; 1; 2] /\
  position [1; 4; 128] ([1; 2; 0], [0; 0; 69]) = [1; 8; 69] /\
  launchable (blocks [65536; 1; 1] (cu_block [65536; 1; 1])) (cu_block [65536; 1; 1]) = false.
Proof. repeat split; vm_compute; reflexivity. Qed.

(** ** C230: CUDASoAGrid holds what is written to it *)

Theorem C230_cuda_reads_back : forall C order t correct R sizes (junk : Z -> C) b topo dflt edge ops,
  any_order order -> sizes_ok sizes -> gpu_sizes sizes -> soa_setup t correct R b topo -> Forall (access_ok (soa_coord t correct b topo) (in_box b)) ops ->
  let f := contents (ddenotes t correct b topo) dflt edge ops in
  (sizes (soa_dims t R (b_dim b)) = None /\ cu_make order t R sizes junk b dflt edge topo = None) \/
  exists g0 g, cu_make order t R sizes junk b dflt edge topo = Some g0 /\ cu_ops order t correct sizes g0 ops = Some g /\ sg_box g = b /\ sg_edge g = f None /\
    (forall c, soa_coord t correct b topo c -> cu_get order t correct sizes junk g c = Some (f (ddenotes t correct b topo c))) /\
    (forall s, s_x s <= s_e s -> Forall (in_box b) (streak_coords s) ->
       cu_get_streak order t correct sizes junk g s = Some (map (fun c => f (ddenotes t correct b topo c)) (streak_coords s))).
Proof.
  intros C order t correct R sizes junk b topo dflt edge ops Hord Hsz Hgpu ((Hne & Ho & Hld & Hp & Hle) & H3 & HR) Hops f.
  rewrite (make_same order Hord t R sizes H3 Hne HR Hsz Hgpu b topo Hld Ho Hp junk dflt edge).
  destruct (srep_make t R sizes H3 Hne HR Hsz b topo Hld Ho Hp junk dflt edge) as [(g0 & E0 & R0)|H]; [|now left]. right.
  assert (Hall : forall (l : list (gop C)) (g : sgrid C) f0, srep t R sizes b topo g f0 -> Forall (access_ok (soa_coord t correct b topo) (in_box b)) l -> cu_ops order t correct sizes g l = sg_ops t correct sizes g l).
  { induction l as [|o l IH]; intros g f0 Rg Hl; [reflexivity|]. apply Forall_cons_iff' in Hl. destruct Hl as [Hl1 Hl2]. cbn [cu_ops sg_ops].
    rewrite (op_same order Hord t R sizes H3 Hne HR Hsz Hgpu b topo Hld Ho Hp correct Hle g f0 o Rg Hl1).
    destruct (srep_op t R sizes H3 Hne HR Hsz b topo Hld Ho Hp correct Hle g f0 o Rg Hl1) as (g' & E & Rg'). rewrite E. cbn [obind]. now apply (IH g' _ Rg'). }
  destruct (srep_ops t R sizes H3 Hne HR Hsz b topo Hld Ho Hp correct Hle ops g0 _ R0 Hops) as (g & E & Rg). exists g0, g. split; [exact E0|]. split; [rewrite (Hall ops g0 _ R0 Hops); exact E|].
  split; [apply Rg|]. split; [apply Rg|]. split.
  - intros c Hc. rewrite (get_same order Hord t R sizes H3 Hne HR Hsz Hgpu b topo Hld Ho Hp correct Hle junk g _ c Rg Hc). now apply (srep_get t R sizes H3 Hne HR Hsz b topo Hld Ho Hp correct Hle).
  - intros s Hx Hs. rewrite (get_streak_same order Hord t R sizes H3 Hne HR Hsz Hgpu b topo Hld Ho Hp correct Hle junk g _ s Rg Hx Hs). now apply (srep_get_streak t R sizes H3 Hne HR Hsz b topo Hld Ho Hp correct Hle).
Qed.
Print Assumptions C230_cuda_reads_back.

(** LibFlatArray's default sizes respect CUDA's limits. *)
Theorem C230_default_sizes : gpu_sizes default_sizes.
Proof.
  intros z y x ext H. pose proof (default_sizes_ok _ _ H) as Hle. unfold default_sizes in H.
  assert (Hmax : forall l n e m, first_fit l n = Some e -> Forall (fun s => s <= m) l -> n <= m).
  { intros l n e m E Hl. unfold first_fit in E. apply find_some in E. destruct E as [E1 E2]. rewrite Forall_forall in Hl. apply Hl in E1. lia. }
  destruct ((1 <? y) && (1 <? z)) eqn:E1; [|destruct (1 <? y) eqn:E2]; cbn [uniform_1d uniform_2d uniform_3d] in H.
  - destruct (first_fit sizes_3d (Z.max x (Z.max y z))) as [e|] eqn:E; [|discriminate]. apply (Hmax _ _ _ 1032) in E; [lia|]. repeat constructor; lia.
  - destruct (Z.eqb_spec z 1); [|discriminate]. destruct (first_fit sizes_2d (Z.max x y)) as [e0|] eqn:E; [|discriminate]. apply (Hmax _ _ _ 32800) in E; [lia|]. repeat constructor; lia.
  - destruct (Z.eqb_spec y 1), (Z.eqb_spec z 1); try discriminate. lia.
Qed.
Print Assumptions C230_default_sizes.

(** Whatever state an SoAGrid may get into, CUDASoAGrid does the same. *)
Theorem C230_cuda_same : forall C M order t correct st sizes (junk : Z -> C) K (part : nat -> C -> M) (assemble : list M -> C) b topo g,
  any_order order -> sizes_ok sizes -> gpu_sizes sizes -> soa_setup t correct (Z.of_nat (st_rad st)) b topo -> sg_reach t correct st sizes junk K assemble b topo g ->
  (forall o, access_ok (soa_coord t correct b topo) (in_box b) o -> cu_op order t correct sizes g o = sg_op t correct sizes g o) /\
  (forall c, soa_coord t correct b topo c -> cu_get order t correct sizes junk g c = sg_get t correct sizes g c) /\
  (forall s, s_x s <= s_e s -> Forall (in_box b) (streak_coords s) -> cu_get_streak order t correct sizes junk g s = sg_get_streak t correct sizes g s) /\
  (forall b', soa_setup t correct (Z.of_nat (st_rad st)) b' topo -> cu_resize order sizes junk g b' = sg_resize sizes junk g b') /\
  (forall n r off, length t = S n -> rvalid n r -> length off = length t -> (forall c, inr n r c -> in_box b (zadd c off)) ->
    (forall buf, cu_load order sizes K assemble g r off buf = sg_load sizes K assemble g r off buf) /\
    exists cs, region_coords r = Some cs /\
      forall mjunk room, cu_save order sizes K part mjunk g r off room = if room <? Z.of_nat K * Z.of_nat (length cs) then None else sg_save sizes K part g r off).
Proof.
  intros C M order t correct st sizes junk K part assemble b topo g Hord Hsz Hgpu Hs Hr. destruct (reach_rep t correct st sizes junk K assemble Hsz b topo g Hs Hr) as (f & Rf).
  destruct Hs as ((Hne & Ho & Hld & Hp & Hle) & H3 & HR). set (R := Z.of_nat (st_rad st)) in *. split; [|split; [|split; [|split]]].
  - intros o Hok. now apply (op_same order Hord t R sizes H3 Hne HR Hsz Hgpu b topo Hld Ho Hp correct Hle g f).
  - intros c Hc. now apply (get_same order Hord t R sizes H3 Hne HR Hsz Hgpu b topo Hld Ho Hp correct Hle junk g f).
  - intros s Hx Hs. now apply (get_streak_same order Hord t R sizes H3 Hne HR Hsz Hgpu b topo Hld Ho Hp correct Hle junk g f).
  - intros b' ((_ & Ho' & Hld' & Hp' & _) & _). now apply (resize_same order Hord t R sizes H3 Hne HR Hsz Hgpu b' topo Hld' Ho' Hp' junk b g f).
  - intros n r off Hn Hrv Hoff Hin. split.
    + intros buf. now apply (load_same order Hord t R sizes H3 Hne HR Hsz Hgpu b topo Hld Ho Hp K assemble g f n).
    + destruct (SoATransfer.region_streaks t n r Hn Hrv) as (ss & cs & _ & Ec & _). exists cs. split; [exact Ec|]. intros mjunk room.
      now apply (save_same order Hord t R sizes H3 Hne HR Hsz Hgpu b topo Hld Ho Hp K part mjunk g f n).
Qed.
Print Assumptions C230_cuda_same.

(** A line of cells whose ends are padded. The threads run backwards. *)
Example C230_example :
  let order g b := rev (threads g b) in let sizes := custom_sizes [8] [1] [1] in let t := [false] in let b := mkBox [10] [4] in
  let r := insert_all (reg_empty 1) [mkStreak [] 10 11; mkStreak [] 12 14] in let part j (c : Z) := c + 100 * Z.of_nat j in let assemble l := nth 0 l 0 in
  any_order order /\ sizes_ok sizes /\ gpu_sizes sizes /\ soa_setup t false 1 b [0] /\
  exists g0 g g', cu_make order t 1 sizes (fun _ => 99) b 0 (-1) [0] = Some g0 /\ sg_mem g0 = [-1; 0; 0; 0; 0; -1; 99; 99] /\
    cu_ops order t false sizes g0 [GSet [11] 1; GSetStreak (mkStreak [] 12 14) [2; 3]; GSet [20] 7] = Some g /\ sg_mem g = [7; 0; 1; 2; 3; 7; 99; 99] /\
    cu_get order t false sizes (fun _ => 99) g [13] = Some 3 /\ cu_get order t false sizes (fun _ => 99) g [9] = Some 7 /\
    cu_get_streak order t false sizes (fun _ => 99) g (mkStreak [] 11 13) = Some [1; 2] /\
    cu_save order sizes 2 part (fun _ => 99) g r [0] 5 = None /\ cu_save order sizes 2 part (fun _ => 99) g r [0] 8 = Some [0; 2; 3; 100; 102; 103] /\
    cu_load order sizes 1 assemble g r [0] [4; 5; 6] = Some g' /\ sg_mem g' = [7; 4; 1; 5; 6; 7; 99; 99].
Proof.
  intros order sizes t b r part assemble. split; [intros g bl; apply Permutation_rev|]. split; [apply custom_sizes_ok|]. split; [|split; [repeat split; cbn; try lia; try discriminate; repeat constructor; lia|]].
  - intros z y x ext H. unfold sizes, custom_sizes, first_fit in H. cbn [find] in H. destruct (Z.leb_spec x 8), (Z.leb_spec y 1), (Z.leb_spec z 1); try discriminate; lia.
  - do 3 eexists. repeat (split; [vm_compute; reflexivity|]). vm_compute; reflexivity.
Qed.

(** ** C231: too many layers *)

(** If there are too many layers, then the launch fails. Nobody notices: the
    grid has been created, but its cells haven't been set. *)
Theorem C231_too_many_blocks_refuted : exists t sizes b c, sizes_ok sizes /\ soa_setup t false 1 b [0; 0; 0] /\ in_box b c /\
  forall C order (junk : Z -> C) dflt edge, any_order order ->
    exists g, cu_make order t 1 sizes junk b dflt edge [0; 0; 0] = Some g /\ cu_get order t false sizes junk g c = Some (junk 0).
Proof.
  exists [true; true; true], (custom_sizes [1] [1] [65536]), (mkBox [0; 0; 0] [65536; 1; 1]), [0; 0; 0].
  split; [apply custom_sizes_ok|]. split; [repeat split; cbn; try lia; try discriminate; repeat constructor; lia|]. split; [cbn; lia|]. intros C order junk dflt edge Hord.
  assert (Es : custom_sizes [1] [1] [65536] [65536; 1; 1] = Some [65536; 1; 1]) by (vm_compute; reflexivity).
  exists (mkSGrid (mkBox [0; 0; 0] [65536; 1; 1]) [0; 0; 0] edge [0; 0; 0] [65536; 1; 1] (map junk (zrange 0 65536))). split.
  - unfold cu_make, sg_resize0, mem_resize. cbn [sg_rad sg_act sg_mem sg_box sg_topo sg_edge b_dim].
    replace (edge_radii [true; true; true] 1) with [0; 0; 0] by reflexivity.
    match goal with |- context [CoordModel.coord_eqb [0; 0; 0] ?d] => replace d with [65536; 1; 1] by reflexivity end.
    replace (CoordModel.coord_eqb [0; 0; 0] [65536; 1; 1]) with false by reflexivity. rewrite Es. cbn [option_map obind sg_act sg_rad sg_mem]. rewrite Es. cbn [obind].
    unfold cu_content, launch. replace (launchable (blocks [65536; 1; 1] (cu_block [65536; 1; 1])) (cu_block [65536; 1; 1])) with false by (vm_compute; reflexivity). reflexivity.
  - unfold cu_get. cbn [sg_act sg_mem sg_box b_dim sg_edge].
    match goal with |- context [sg_coord ?t ?k ?g ?c] => replace (sg_coord t k g c) with [0; 0; 0] by reflexivity end.
    replace (out_of_bounds [true; true; true] [0; 0; 0] [65536; 1; 1]) with false by reflexivity. rewrite Es. cbn [obind].
    match goal with |- context [cu_place ?g ?c] => replace (cu_place g c) with [0; 0; 0] by reflexivity end.
    rewrite (lfa_get_ok order Hord junk 65536 1 1 0 0 0 1 _ [junk 0]); [reflexivity|].
    replace (gen_index [65536; 1; 1] [0; 0; 0]) with 0 by reflexivity. rewrite zrange_cons by lia. reflexivity.
Qed.
Print Assumptions C231_too_many_blocks_refuted.

(** ** C232: LibFlatArray's [broadcast] *)

(** All threads write the same cell. *)
Theorem C232_broadcast_single : forall C order ext z y x v count (m : list C), any_order order -> 0 < count -> 0 <= gen_index ext [z; y; x] < Z.of_nat (length m) ->
  lfa_broadcast order ext [z; y; x] v count m = vec_set m (gen_index ext [z; y; x]) v.
Proof.
  intros C order ext z y x v count m Hord Hc Hi. unfold lfa_broadcast, launch_line, launch.
  destruct (suits_launch 1 1 count (lfa_block [1; 1; count]) (lfa_block_suits 1 1 count) ltac:(lia) ltac:(lia) Hc) as (L1 & L2 & L3). rewrite L1.
  specialize (L3 0 0 0 ltac:(lia) ltac:(lia) ltac:(lia)). unfold any_order in Hord. change (lfa_block [1; 1; count]) with [1; 1; 512] in *.
  unfold blocks in *. cbn [combine map fst snd] in *. set (n1 := round_up 1 1) in *. set (nx := round_up count 512) in *. clearbody n1 nx.
  specialize (Hord [n1; n1; nx] [1; 1; 512]). apply (position_cover n1 n1 nx 1 1 512) in L3; try lia. destruct L3 as (th0 & Hth0 & _).
  set (l := order [n1; n1; nx] [1; 1; 512]) in *. assert (Hin : forall th, In th l -> In th (threads [n1; n1; nx] [1; 1; 512])) by (intros th Hth; eapply Permutation_in; [apply Permutation_sym; exact Hord|exact Hth]).
  assert (Hne : l <> []) by (intros E; rewrite E in Hord; apply Permutation_sym, Permutation_nil in Hord; rewrite Hord in Hth0; destruct Hth0). clearbody l. clear Hord Hth0 L1 L2.
  set (i0 := gen_index ext [z; y; x]) in *.
  assert (Hk : forall th, In th l -> forall m', obind (set_kernel 0 ext [v] count [z; y; x] (position [1; 1; 512] th)) (fun ws => put_all ws m') = vec_set m' i0 v).
  { intros th Hth m'. apply Hin in Hth. apply threads_in in Hth. destruct Hth as (kz & ky & kx & jz & jy & jx & -> & _). unfold position. cbn [fst snd combine map zadd]. unfold set_kernel.
    rewrite Z.mul_0_r, Z.add_0_r. destruct (Z.leb_spec count 0); [lia|]. cbn -[vec_set gen_index]. fold i0. now destruct (vec_set m' i0 v). }
  clear Hin. destruct (vec_set_spec m i0 v Hi) as (m1 & E1 & Hl1 & Hg1). rewrite E1.
  assert (Hidem : vec_set m1 i0 v = Some m1).
  { destruct (vec_set_spec m1 i0 v ltac:(lia)) as (m2 & E2 & Hl2 & Hg2). rewrite E2. f_equal. apply SellFacts.vec_get_ext; [lia|]. intros j Hj. rewrite Hg2, Hg1. destruct (i0 =? j); reflexivity. }
  destruct l as [|th l]; [congruence|]. cbn [each]. rewrite (Hk th) by now left. rewrite E1. cbn [obind]. assert (Hk' : forall th, In th l -> forall m', obind (set_kernel 0 ext [v] count [z; y; x] (position [1; 1; 512] th)) (fun ws => put_all ws m') = vec_set m' i0 v) by (intros; apply Hk; now right).
  clear Hk Hne. induction l as [|th' l IH]; [reflexivity|]. cbn [each]. rewrite (Hk' th') by now left. rewrite Hidem. cbn [obind]. apply IH. intros; apply Hk'; now right.
Qed.
Print Assumptions C232_broadcast_single.

(** So [broadcast] doesn't copy the cell to all places. *)
Theorem C232_broadcast_refuted : exists order ext z y x (v : Z) count m m' k, any_order order /\ 0 <= k < count /\
  0 <= gen_index ext [z; y; x] /\ gen_index ext [z; y; x] + count <= Z.of_nat (length m) /\
  lfa_broadcast order ext [z; y; x] v count m = Some m' /\ vec_get m' (gen_index ext [z; y; x] + k) <> Some v.
Proof.
  exists threads, [1; 1; 4], 0, 0, 1, 7, 3, [0; 0; 0; 0], [0; 7; 0; 0], 1. split; [intros g b; apply Permutation_refl|]. split; [lia|]. split; [vm_compute; discriminate|]. split; [vm_compute; discriminate|]. split.
  - rewrite C232_broadcast_single; [reflexivity|intros g b; apply Permutation_refl|lia|]. vm_compute. split; [discriminate|reflexivity].
  - vm_compute. discriminate.
Qed.
Print Assumptions C232_broadcast_refuted.
