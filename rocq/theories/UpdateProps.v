(** Updating regions: C44, C52 and what doesn't hold, C83, C84. *)
From Coq Require Import Permutation.
From Verif Require Import Base ListFacts RegionSpec RegionModel RegionRep RegionIterModel RegionStreaks RegionOpsModel HaloSpec
  CoordModel CoordSpec CoordFacts TopologyFacts PatchModel ConfigFacts GridModel GridSpec GridFacts DisplacedFacts GridReach SellFacts RegionOps
  StencilModel StencilSpec StencilFacts StencilProps UpdateModel UpdateSpec UpdateFacts.

(** ** C44: line pointers *)

(** At each position of a Streak the neighborhood returns the same cells as
    the grid does. West is flagged for the first cell, East for the last one. *)
Theorem C44_neighborhoods : forall C st t correct b topo (d : dgrid C) s,
  line_stencil st -> st_dim st = length t -> setup_ok t correct b topo -> dg_reach t correct b topo d ->
  s_x s < s_e s -> length (s_pre s) = (length t - 1)%nat -> Forall (in_box b) (streak_coords s) ->
  exists ps, lp_assemble st (dg_loc t correct d) s = Some ps /\
    forall x f, 0 <= x < s_e s - s_x s -> in_stencil st f ->
      lp_access st (d_grid d) (lp_flags st t s b (x =? 0) (x =? s_e s - s_x s - 1)) ps x f =
      dg_get t correct d (zadd (s_pre s ++ [s_x s + x]) (fc_coord (st_dim st) f)).
Proof.
  intros C st t correct b topo d s Hst Hdim Hs Hr Hx Hp Hin. destruct (dg_reach_rep t correct b topo d Hs Hr) as (f & H1 & H2 & H3). destruct H3 as (H3 & _).
  destruct (lp_assembled st Hst t correct b topo Hs Hdim d H1 H2 H3 s Hx Hp Hin) as (ps & E & _). exists ps. split; [exact E|]. intros x e Hxx He.
  rewrite <- deref_dg_get. now apply (lp_access_eq st Hst t correct b topo Hs Hdim d H1 H2 H3 s Hx Hp Hin).
Qed.
Print Assumptions C44_neighborhoods.

(** The same for grids which aren't displaced. *)
Theorem C44_grid_neighborhoods : forall C st t dim (g : vgrid C) s,
  line_stencil st -> st_dim st = length t -> length t = length dim -> Forall (fun n => 0 < n) dim -> grid_reach t dim g ->
  s_x s < s_e s -> length (s_pre s) = (length t - 1)%nat -> Forall (in_grid dim) (streak_coords s) ->
  exists ps, lp_assemble st (grid_loc t g) s = Some ps /\
    forall x f, 0 <= x < s_e s - s_x s -> in_stencil st f ->
      lp_access st g (lp_flags st t s (mkBox (zeros dim) dim) (x =? 0) (x =? s_e s - s_x s - 1)) ps x f =
      grid_get t g (zadd (s_pre s ++ [s_x s + x]) (fc_coord (st_dim st) f)).
Proof.
  intros C st t dim g s Hst Hdim Hl Hpos Hr Hx Hp Hin.
  assert (H3 : (1 <= length t <= 3)%nat) by (destruct Hst as (_ & H & _); rewrite <- Hdim; exact H).
  assert (Hn : dim <> []) by (intros ->; cbn in Hl; lia). pose proof (grid_setup t dim Hn Hl Hpos) as Hs.
  destruct (grid_reach_rep t dim g Hn Hl Hpos Hr) as (f & H & _). set (d := mkDGrid g (zeros dim) dim).
  destruct (lp_assembled st Hst t false (mkBox (zeros dim) dim) dim Hs Hdim d eq_refl eq_refl H s Hx Hp Hin) as (ps & E & _).
  assert (Hloc : forall c, length c = length dim -> dg_loc t false d c = grid_loc t g c).
  { intros c Hc. unfold dg_loc, dg_coord. cbn [d d_grid d_org]. now rewrite zsub_zeros. }
  exists ps. split.
  - rewrite <- E. unfold lp_assemble. apply omap_ext. intros i _. destruct (st_coord st i) as [e|]; [|reflexivity]. cbn [obind]. unfold line_coord.
    destruct (calc_x (fc_x e) s) as [y|]; [|reflexivity]. cbn [option_map]. f_equal. symmetry. apply Hloc. destruct (fc_coord_snoc (st_dim st) e ltac:(lia)) as [_ Lf].
    rewrite app_length, zadd_length' by lia. cbn. lia.
  - intros x e Hxx He. rewrite <- deref_get, <- Hloc.
    + exact (lp_access_eq st Hst t false (mkBox (zeros dim) dim) dim Hs Hdim d eq_refl eq_refl H s Hx Hp Hin ps x e E Hxx He).
    + destruct (fc_coord_snoc (st_dim st) e ltac:(lia)) as [Ef Lf]. assert (length (fc_coord (st_dim st) e) = length dim) by (rewrite Ef, app_length; cbn; lia).
      rewrite zadd_length'; [lia|]. rewrite app_length. cbn. lia.
Qed.
Print Assumptions C44_grid_neighborhoods.

(** Both paths do the same, for grids located at the given boxes. *)
Lemma lp_body_located C st upd t correct b topo (d : dgrid C) cN bN topoN (dn : dgrid C) s toff : line_stencil st -> st_dim st = length t ->
  setup_ok t correct b topo -> d_org d = b_origin b -> d_topo d = topo -> g_dim (d_grid d) = b_dim b ->
  setup_ok t cN bN topoN -> d_org dn = b_origin bN -> d_topo dn = topoN -> g_dim (d_grid dn) = b_dim bN ->
  s_x s < s_e s -> length (s_pre s) = (length t - 1)%nat -> length toff = length t ->
  Forall (in_box b) (streak_coords s) -> Forall (fun c => in_box bN (zadd c toff)) (streak_coords s) ->
  forall g, lp_body st upd t (d_grid d) (dg_loc t correct d) b (dg_loc t cN dn) (zeros (b_dim b)) toff s g =
            van_body st upd (d_grid d) (dg_loc t correct d) (dg_loc t cN dn) (zeros (b_dim b)) toff s g.
Proof.
  intros Hst Hdim Hs R1 R2 R3 HsN S1 S2 S3 Hx Hp Hlt Hin HinN g.
  assert (H3 : (1 <= length t <= 3)%nat) by (destruct Hst as (_ & H & _); rewrite <- Hdim; exact H).
  pose proof Hs as (_ & _ & Hld & _). assert (Hz : length (zeros (b_dim b)) = S (length t - 1)) by (unfold zeros; rewrite map_length; lia).
  destruct (move_parts (length t - 1) s toff Hp ltac:(lia)) as [_ Et].
  assert (Es : move_streak s (zeros (b_dim b)) = s).
  { destruct (move_parts (length t - 1) s (zeros (b_dim b)) Hp Hz) as [-> _]. destruct s as [pre x e]. cbn [s_pre s_x s_e] in *.
    assert (Hzz : forall l pre, length pre = (length l - 1)%nat -> zadd pre (removelast (zeros l)) = pre).
    { induction l as [|y l IH]; intros pre' H; [destruct pre'; [reflexivity|discriminate]|]. destruct l as [|z l]; [destruct pre'; [reflexivity|discriminate]|].
      destruct pre' as [|u pre']; [discriminate|]. change (removelast (zeros (y :: z :: l))) with (0 :: removelast (zeros (z :: l))). cbn [zadd]. rewrite IH by (cbn in *; lia). f_equal. lia. }
    assert (Hlz : forall l, last (zeros l) 0 = 0) by (induction l as [|y [|z l] IH]; [reflexivity|reflexivity|exact IH]).
    rewrite Hzz by lia. rewrite Hlz. f_equal; lia. }
  unfold lp_body, van_body. rewrite Es, Et. rewrite removelast_last, last_last.
  destruct (lp_assembled st Hst t correct b topo Hs Hdim d R1 R2 R3 s Hx Hp Hin) as (ps & E & _). rewrite E. cbn [obind].
  destruct (snoc_parts toff (length t - 1) 0 ltac:(lia)) as [Eto Lto].
  assert (HtN : forall x, s_x s <= x < s_e s -> in_box bN (zadd (s_pre s) (removelast toff) ++ [x + last toff 0])).
  { intros x Hxx. rewrite Forall_forall in HinN. specialize (HinN (s_pre s ++ [x])). rewrite Eto in HinN. rewrite zadd_snoc in HinN by lia. apply HinN.
    unfold streak_coords. apply in_map_iff. exists x. split; [reflexivity|]. now apply zrange_in. }
  destruct (row_target t cN bN topoN dn (zadd (s_pre s) (removelast toff)) HsN S1 S2 S3 ltac:(rewrite zadd_length'; lia) (s_x s + last toff 0) (HtN (s_x s) ltac:(lia))) as (base & Hbase).
  rewrite (Hbase _ (HtN (s_x s) ltac:(lia))). apply (lp_line_eq st Hst t correct b topo Hs Hdim d R1 R2 R3 s Hx Hp Hin); [|exact E].
  intros k Hk. replace (s_x s + last toff 0 + k) with (s_x s + k + last toff 0) by lia. rewrite Hbase by (apply HtN; lia). f_equal. lia.
Qed.

Lemma lp_body_van C st upd t correct b topo (d : dgrid C) cN bN topoN (dn : dgrid C) s toff : line_stencil st -> st_dim st = length t ->
  setup_ok t correct b topo -> dg_reach t correct b topo d -> setup_ok t cN bN topoN -> dg_reach t cN bN topoN dn ->
  s_x s < s_e s -> length (s_pre s) = (length t - 1)%nat -> length toff = length t ->
  Forall (in_box b) (streak_coords s) -> Forall (fun c => in_box bN (zadd c toff)) (streak_coords s) ->
  forall g, lp_body st upd t (d_grid d) (dg_loc t correct d) b (dg_loc t cN dn) (zeros (b_dim b)) toff s g =
            van_body st upd (d_grid d) (dg_loc t correct d) (dg_loc t cN dn) (zeros (b_dim b)) toff s g.
Proof.
  intros Hst Hdim Hs Hr HsN HrN. destruct (dg_reach_rep t correct b topo d Hs Hr) as (f & R1 & R2 & R3 & _).
  destruct (dg_reach_rep t cN bN topoN dn HsN HrN) as (f' & S1 & S2 & S3 & _). now apply lp_body_located with (topo := topo) (bN := bN) (topoN := topoN).
Qed.

(** Whole Streaks: both paths do the same, in whatever state the target grid
    is. *)
Theorem C44_paths_agree : forall C st upd t correct b topo (d : dgrid C) cN bN topoN (dn : dgrid C) s toff, line_stencil st -> st_dim st = length t ->
  setup_ok t correct b topo -> dg_reach t correct b topo d -> setup_ok t cN bN topoN -> dg_reach t cN bN topoN dn ->
  s_x s < s_e s -> length (s_pre s) = (length t - 1)%nat -> length toff = length t ->
  Forall (in_box b) (streak_coords s) -> Forall (fun c => in_box bN (zadd c toff)) (streak_coords s) ->
  forall g, lp_body st upd t (d_grid d) (dg_loc t correct d) b (dg_loc t cN dn) (zeros (b_dim b)) toff s g =
            van_body st upd (d_grid d) (dg_loc t correct d) (dg_loc t cN dn) (zeros (b_dim b)) toff s g.
Proof. exact lp_body_van. Qed.
Print Assumptions C44_paths_agree.

(** A torus of 12 x 12 cells (without wrapping along Y) of which a grid stores
    4 x 4: the row next to the edge. *)
Example C44_example :
  let st := mkStencil Moore 2 1 in let b := mkBox [8; 8] [4; 4] in let s := mkStreak [11] 9 12 in let t := [false; true] in
  line_stencil st /\ setup_ok t true b [12; 12] /\ s_x s < s_e s /\ Forall (in_box b) (streak_coords s) /\
  exists d ps, dg_ops t true (dg_make b 0 (-1) [12; 12]) [GSetStreak (mkStreak [10] 8 12) [1; 2; 3; 4]; GSetStreak (mkStreak [11] 8 12) [5; 6; 7; 8]] = Some d /\
    lp_assemble st (dg_loc t true d) s = Some ps /\
    hood_values st (lp_access st (d_grid d) (lp_flags st t s b true false) ps 0) = Some [1; 2; 3; 5; 6; 7; -1; -1; -1] /\
    hood_values st (lp_access st (d_grid d) (lp_flags st t s b false false) ps 1) = Some [2; 3; 4; 6; 7; 8; -1; -1; -1].
Proof.
  cbv zeta. split; [repeat split; cbn; try lia; discriminate|]. split; [repeat split; cbn; try lia; try discriminate; repeat constructor; lia|]. split; [cbn; lia|].
  split; [cbn; repeat constructor; cbn; lia|]. eexists. eexists. split; [vm_compute; reflexivity|]. split; [vm_compute; reflexivity|]. split; vm_compute; reflexivity.
Qed.

(** ** C52: source and target offsets *)

Lemma box_place t correct b topo c : setup_ok t correct b topo -> in_box b c ->
  reachable_coord t correct b topo c /\ ddenotes t correct b topo c = Some (zsub c (b_origin b)).
Proof.
  intros (Hn & Ho & Hld & Hp & Hle) Hc. unfold in_box in Hc. apply in_box_zsub in Hc; [|lia]. destruct Hc as [Hlc Hc]. unfold reachable_coord, ddenotes.
  destruct (bool_cases correct) as [Ec|Ec]; rewrite Ec in *.
  - specialize (Hle eq_refl). pose proof (forall2_length _ _ _ Hle) as Hlt. pose proof (in_grid_le _ _ Hle _ Hc) as Hc'. pose proof (forall2_le_pos _ _ Hp Hle) as Hpt.
    assert (E : denotes t topo (zsub c (b_origin b)) = Some (zsub c (b_origin b))) by (apply denotes_self; auto; lia). split; [|exact E].
    split; [lia|]. split; [now apply in_grid_close|]. intros c' E'. rewrite E in E'. assert (c' = zsub c (b_origin b)) as -> by congruence. exact Hc.
  - split; [split; [lia|now apply in_grid_close]|]. apply denotes_self; auto.
Qed.

Lemma nodup_map_in {A B} (f : A -> B) l : NoDup l -> (forall a c, In a l -> In c l -> f a = f c -> a = c) -> NoDup (map f l).
Proof.
  induction 1 as [|a l Ha _ IH]; intros Hi; [constructor|]. cbn [map]. constructor.
  - intros H. apply in_map_iff in H. destruct H as (c & E & Hc). apply Ha. rewrite (Hi a c); auto; [now left|now right].
  - apply IH. intros; apply Hi; auto; now right.
Qed.

Lemma zadd_inj o : forall a c, length o = length c -> length a = length c -> zadd a o = zadd c o -> a = c.
Proof.
  induction o as [|y o IH]; intros [|u a] [|v c] H1 H2 E; cbn in *; try lia; auto.
  injection E as E1 E2. f_equal; [lia|]. apply IH; auto; lia.
Qed.

(** Streaks which cover the cells of a region, each of them once. *)
Lemma updates_ordered C st upd t correct b topo (d : dgrid C) cN bN topoN (dn : dgrid C) n (inR : coord -> Prop) soff toff ss :
  setup_ok t correct b topo -> dg_reach t correct b topo d -> setup_ok t cN bN topoN -> dg_reach t cN bN topoN dn ->
  length t = S n -> length soff = S n -> length toff = S n -> (forall c, inR c -> length c = S n) ->
  Forall (fun s => length (s_pre s) = n /\ s_x s < s_e s) ss -> NoDup (flat_map streak_coords ss) -> (forall c, In c (flat_map streak_coords ss) <-> inR c) ->
  (forall c, inR c -> in_box bN (zadd c toff) /\ Forall (reachable_coord t correct b topo) (neighbors st (zadd c soff))) ->
  exists g', run_bodies (van_body st upd (d_grid d) (dg_loc t correct d) (dg_loc t cN dn) soff toff) ss (d_grid dn) = Some g' /\
    (forall c, inR c -> exists vs v,
      Forall2 (fun c' v' => dg_get t correct d c' = Some v') (neighbors st (zadd c soff)) vs /\
      dg_get t cN dn (zadd c toff) = Some v /\ dg_get t cN (dg_with dn g') (zadd c toff) = Some (upd vs v)) /\
    (forall c, reachable_coord t cN bN topoN c -> (forall c', inR c' -> ddenotes t cN bN topoN c <> ddenotes t cN bN topoN (zadd c' toff)) ->
      dg_get t cN (dg_with dn g') c = dg_get t cN dn c).
Proof.
  intros Hs Hr HsN HrN Hn Lso Lto HlR Hf Hnd Hin Hok.
  destruct (dg_reach_rep t correct b topo d Hs Hr) as (f & R). destruct (dg_reach_rep t cN bN topoN dn HsN HrN) as (fN & RN).
  set (op := fun c => (ddenotes t cN bN topoN (zadd c toff), upd (map (fun c' => f (ddenotes t correct b topo c')) (neighbors st (zadd c soff))))).
  pose proof RN as (_ & _ & RNr).
  destruct (run_spec st upd t correct b topo Hs d f R cN bN topoN HsN dn fN RN n Hn soff toff Lso Lto ss (d_grid dn) fN Hf RNr) as (g' & E & Rg).
  { apply Forall_forall. intros c Hc. apply Hin in Hc. destruct (Hok c Hc) as [K1 K2]. split; [exact K2|]. now apply (box_place t cN bN topoN _ HsN K1). }
  exists g'. split; [exact E|]. pose proof (drep_with bN topoN dn g' fN RN _ Rg) as RD. fold op in RD.
  assert (Hplaces : NoDup (map fst (map op (flat_map streak_coords ss)))).
  { rewrite map_map. cbn [op fst]. apply nodup_map_in; [exact Hnd|]. intros a c Ha Hc Eq. apply Hin in Ha. apply Hin in Hc.
    destruct (Hok a Ha) as [A1 _]. destruct (Hok c Hc) as [C1 _]. destruct (box_place t cN bN topoN _ HsN A1) as [_ A2]. destruct (box_place t cN bN topoN _ HsN C1) as [_ C2].
    rewrite A2, C2 in Eq. assert (Eq' : zsub (zadd a toff) (b_origin bN) = zsub (zadd c toff) (b_origin bN)) by congruence.
    pose proof HsN as (_ & HoN & _). pose proof (HlR a Ha) as La. pose proof (HlR c Hc) as Lc.
    apply sub_inj in Eq'; [|rewrite zadd_length' by lia; lia|rewrite !zadd_length' by lia; lia]. apply zadd_inj in Eq'; auto; lia. }
  split.
  - intros c Hc. destruct (Hok c Hc) as [K1 K2]. destruct (box_place t cN bN topoN _ HsN K1) as [K3 _].
    exists (map (fun c' => f (ddenotes t correct b topo c')) (neighbors st (zadd c soff))), (fN (ddenotes t cN bN topoN (zadd c toff))). split; [|split].
    + induction K2 as [|c' l Hc' _ IH]; cbn [map]; constructor; [|exact IH]. now apply (drep_get t correct b topo Hs d f).
    + now apply (drep_get t cN bN topoN HsN dn fN).
    + rewrite (drep_get t cN bN topoN HsN _ _ _ RD K3). f_equal.
      apply (modify_at (map op (flat_map streak_coords ss)) fN (ddenotes t cN bN topoN (zadd c toff)) (snd (op c)) Hplaces). apply in_map_iff. exists c. split; [reflexivity|]. now apply Hin.
  - intros c Hc Hno. rewrite (drep_get t cN bN topoN HsN _ _ _ RD Hc), (drep_get t cN bN topoN HsN _ _ _ RN Hc). f_equal. apply modify_other.
    rewrite map_map. intros Hi. apply in_map_iff in Hi. destruct Hi as (c' & E' & Hc'). cbn [op fst] in E'. apply Hin in Hc'. now apply (Hno c' Hc').
Qed.

(** Whatever the order in which the Streaks (or parts of them) are updated:
    the cell at [c + toff] receives the update of the neighborhood of [c +
    soff], for each [c] of the region, and no other cell changes. *)
Theorem C52_updates : forall C st upd t correct b topo (d : dgrid C) cN bN topoN (dn : dgrid C) n r soff toff ss body,
  setup_ok t correct b topo -> dg_reach t correct b topo d -> setup_ok t cN bN topoN -> dg_reach t cN bN topoN dn ->
  length t = S n -> length soff = S n -> length toff = S n -> rvalid n r -> work_order r ss ->
  (forall c, inr n r c -> in_box bN (zadd c toff) /\ Forall (reachable_coord t correct b topo) (neighbors st (zadd c soff))) ->
  body = van_body st upd (d_grid d) (dg_loc t correct d) (dg_loc t cN dn) soff toff \/
  (body = lp_body st upd t (d_grid d) (dg_loc t correct d) b (dg_loc t cN dn) soff toff /\
   line_stencil st /\ st_dim st = length t /\ soff = zeros (b_dim b) /\ forall c, inr n r c -> in_box b c) ->
  exists g', run_bodies body ss (d_grid dn) = Some g' /\
    (forall c, inr n r c -> exists vs v,
      Forall2 (fun c' v' => dg_get t correct d c' = Some v') (neighbors st (zadd c soff)) vs /\
      dg_get t cN dn (zadd c toff) = Some v /\ dg_get t cN (dg_with dn g') (zadd c toff) = Some (upd vs v)) /\
    (forall c, reachable_coord t cN bN topoN c -> (forall c', inr n r c' -> ddenotes t cN bN topoN c <> ddenotes t cN bN topoN (zadd c' toff)) ->
      dg_get t cN (dg_with dn g') c = dg_get t cN dn c).
Proof.
  intros C st upd t correct b topo d cN bN topoN dn n r soff toff ss body Hs Hr HsN HrN Hn Lso Lto Hrv Hw Hok Hbody.
  destruct (work_order_spec n r ss Hrv Hw) as (Hf & Hnd & Hin).
  assert (Heq : forall g, run_bodies body ss g = run_bodies (van_body st upd (d_grid d) (dg_loc t correct d) (dg_loc t cN dn) soff toff) ss g).
  { destruct Hbody as [->|(-> & Hst & Hdim & -> & Hbox)]; [reflexivity|].
    assert (Hsub : forall c, In c (flat_map streak_coords ss) -> inr n r c) by (intros; now apply Hin). clear Hin Hw Hnd.
    induction ss as [|s ss IH]; intros g; [reflexivity|]. pose proof (Forall_inv Hf) as [F1 F2]. pose proof (Forall_inv_tail Hf) as F3. cbn [run_bodies].
    rewrite (lp_body_van C st upd t correct b topo d cN bN topoN dn s toff); auto; try lia.
    - destruct (van_body _ _ _ _ _ _ _ s g) as [g1|]; [|reflexivity]. cbn [obind]. apply IH; auto. intros c Hc. apply Hsub. cbn [flat_map]. apply in_or_app. now right.
    - apply Forall_forall. intros c Hc. apply Hbox, Hsub. cbn [flat_map]. apply in_or_app. now left.
    - apply Forall_forall. intros c Hc. apply Hok, Hsub. cbn [flat_map]. apply in_or_app. now left. }
  rewrite Heq.
  apply (updates_ordered C st upd t correct b topo d cN bN topoN dn n (inr n r)); auto. now intros c [Hc _].
Qed.
Print Assumptions C52_updates.

(** Regions at non-negative coordinates: cutting Streaks always succeeds, and
    each cell is part of exactly one piece. No piece exceeds the granularity. *)
Theorem C52_tranches : forall n r gran ss, rvalid n r -> reg_streaks r = Some ss -> 1 <= gran -> Forall (fun s => 0 <= s_x s) ss ->
  exists ps, cut_streaks gran ss = Some ps /\ flat_map streak_coords ps = flat_map streak_coords ss /\
    Forall (fun p => s_x p < s_e p <= s_x p + gran) ps.
Proof.
  intros n r gran ss Hr E Hg Hx. destruct (streaks_valid n r Hr) as (l & [_ Hok] & _ & El & _). assert (l = ss) as -> by congruence.
  destruct (cut_streaks_spec gran Hg ss) as (ps & E1 & E2 & E3).
  - rewrite Forall_forall in *. intros s Hs. specialize (Hok s Hs). specialize (Hx s Hs). cbn in *. lia.
  - exists ps. split; [exact E1|]. split; [exact E2|]. eapply Forall_impl; [|exact E3]. cbn. tauto.
Qed.
Print Assumptions C52_tranches.

Example C52_example :
  let st := mkStencil VonNeumann 2 1 in let t := [false; false] in let b := mkBox [0; 0] [4; 12] in
  let r := insert_all (reg_empty 2) [mkStreak [1] 3 10; mkStreak [2] 5 6] in
  let upd (vs : list Z) (v : Z) := fold_right Z.add v vs in
  rvalid 1 r /\ setup_ok t false b [0; 0] /\ (forall c, inr 1 r c -> in_box b (zadd c [-1; 2]) /\ in_box b (zadd c [1; 1])) /\
  work_order r [mkStreak [1] 8 10; mkStreak [2] 5 6; mkStreak [1] 3 4; mkStreak [1] 4 8] /\
  exists d g', dg_ops t false (dg_make b 1 100 [0; 0]) [GSet [2; 4] 10; GSet [3; 9] 20] = Some d /\
    run_bodies (van_body st upd (d_grid d) (dg_loc t false d) (dg_loc t false (dg_make b 3 0 [0; 0])) [1; 1] [-1; 2])
      [mkStreak [1] 8 10; mkStreak [2] 5 6; mkStreak [1] 3 4; mkStreak [1] 4 8] (d_grid (dg_make b 3 0 [0; 0])) = Some g' /\
    g_cells g' = [3; 3; 3; 3; 3; 17; 17; 8; 8; 8; 27; 8;  3; 3; 3; 3; 3; 3; 3; 107; 3; 3; 3; 3;
                  3; 3; 3; 3; 3; 3; 3; 3; 3; 3; 3; 3;  3; 3; 3; 3; 3; 3; 3; 3; 3; 3; 3; 3].
Proof.
  intros st t b r upd.
  destruct (insert_all_valid 1 [mkStreak [1] 3 10; mkStreak [2] 5 6] (reg_empty 2) (rvalid_empty 1)) as [V Hi]; [repeat constructor|].
  split; [exact V|]. split; [repeat split; cbn; try lia; try discriminate; repeat constructor; lia|].
  split.
  { intros c [Hc H]. apply Hi in H; auto. destruct H as [H|(s & Hs & x & -> & Hx)]; [exfalso; eapply (rin_empty 1); eauto|].
    destruct Hs as [<-|[<-|[]]]; cbn in Hx; unfold in_box; cbn; lia. }
  split.
  { apply (order_tranches r 4 [mkStreak [1] 3 10; mkStreak [2] 5 6] [mkStreak [1] 3 4; mkStreak [1] 4 8; mkStreak [1] 8 10; mkStreak [2] 5 6]).
    - vm_compute. reflexivity.
    - lia.
    - repeat constructor; cbn; lia.
    - vm_compute. reflexivity.
    - transitivity ([mkStreak [1] 8 10; mkStreak [2] 5 6] ++ [mkStreak [1] 3 4; mkStreak [1] 4 8]); [|reflexivity]. apply (Permutation_app_comm [mkStreak [1] 3 4; mkStreak [1] 4 8]). }
  eexists. eexists. split; [vm_compute; reflexivity|]. split; vm_compute; reflexivity.
Qed.

(** ** C83: source offsets on the path for fixed coordinates *)

(** LinePointerAssembly gets the Streak of the region in place of the displaced
    one, hence the source offset has no effect on the cells being read. *)
Theorem C83_source_offset_refuted : exists st upd t b topo (d dn : dgrid Z) s soff toff g1 g2,
  line_stencil st /\ st_dim st = length t /\ setup_ok t false b topo /\ dg_reach t false b topo d /\ dg_reach t false b topo dn /\
  s_x s < s_e s /\ Forall (in_box b) (streak_coords s) /\ Forall (fun c => in_box b (zadd c soff) /\ in_box b (zadd c toff)) (streak_coords s) /\
  lp_body st upd t (d_grid d) (dg_loc t false d) b (dg_loc t false dn) soff toff s (d_grid dn) = Some g1 /\
  van_body st upd (d_grid d) (dg_loc t false d) (dg_loc t false dn) soff toff s (d_grid dn) = Some g2 /\
  dg_get t false (dg_with dn g1) (s_origin s) <> dg_get t false (dg_with dn g2) (s_origin s).
Proof.
  exists (mkStencil Moore 1 1), (fun vs _ => nth 1 vs 0), [false], (mkBox [0] [6]), [6].
  destruct (dg_ops [false] false (dg_make (mkBox [0] [6]) 0 0 [6]) [GSet [3] 7]) as [d|] eqn:E; [|vm_compute in E; discriminate].
  exists d, (dg_make (mkBox [0] [6]) 0 0 [6]), (mkStreak [] 2 4), [1], [0].
  assert (Ed : d = mkDGrid (mkVGrid [6] [0; 0; 0; 7; 0; 0] 0) [0] [6]) by (vm_compute in E; congruence).
  eexists. eexists.
  split; [repeat split; cbn; try lia; discriminate|]. split; [reflexivity|]. split; [repeat split; cbn; try lia; try discriminate; repeat constructor; lia|].
  split; [|split; [constructor|]].
  { apply (reach_op [false] false (mkBox [0] [6]) [6] (dg_make (mkBox [0] [6]) 0 0 [6]) (GSet [3] 7)); [constructor|split; [reflexivity|cbn; lia]|].
    cbn [dg_ops obind] in E. destruct (dg_op [false] false (dg_make (mkBox [0] [6]) 0 0 [6]) (GSet [3] 7)); [exact E|discriminate E]. }
  split; [cbn; lia|]. split; [cbn; repeat constructor; cbn; lia|]. split; [cbn; repeat constructor; cbn; lia|].
  subst d. split; [vm_compute; reflexivity|]. split; [vm_compute; reflexivity|]. vm_compute. discriminate.
Qed.
Print Assumptions C83_source_offset_refuted.

(** ** C84: fine-grained parallelism at negative coordinates *)

(** The first piece ends beyond the Streak: cells outside of the region get
    updated. *)
Theorem C84_tranches_refuted : exists gran s ps p c, 1 <= gran /\ s_x s < s_e s /\ cut_streak gran s = Some ps /\
  In p ps /\ In c (streak_coords p) /\ ~ In c (streak_coords s).
Proof.
  exists 4, (mkStreak [0] (-3) 2), [mkStreak [0] (-3) 4; mkStreak [0] 4 2], (mkStreak [0] (-3) 4), [0; 3].
  split; [lia|]. split; [cbn; lia|]. split; [vm_compute; reflexivity|]. split; [now left|]. split.
  - vm_compute. tauto.
  - vm_compute. intros H. repeat (destruct H as [H|H]; [discriminate|]). exact H.
Qed.
Print Assumptions C84_tranches_refuted.
