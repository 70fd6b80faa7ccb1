(** CUDASoAGrid does the same as SoAGrid. *)
From Coq Require Import Permutation.
From Verif Require Import Base ListFacts RegionSpec RegionModel RegionRep RegionIterModel RegionStreaks RegionOpsModel HaloSpec CoordModel CoordSpec CoordFacts
  PatchModel GridModel GridSpec GridFacts SellFacts UpdateModel UpdateFacts SoAModel SoASpec SoAFacts SoARep SoATransfer DisplacedFacts CudaSoAModel CudaSoASpec CudaSoAFacts.

(** What SoAGrid's [SetContent] does to all of the memory *)
Lemma content_all {C} init ez ey ex gz gy gx rz ry rx (edge inner : C) m F : m3 [ez; ey; ex] m F ->
  0 <= gz <= ez -> 0 <= gy <= ey -> 0 <= gx <= ex -> 0 < ez -> 0 < ey -> 0 < ex -> 0 <= rx -> 2 * rx <= gx ->
  exists m' F', set_content init [ez; ey; ex] [gz; gy; gx] [rz; ry; rx] edge inner m = Some m' /\ m3 [ez; ey; ex] m' F' /\
    forall z y x, F' (Some [z; y; x]) =
      if ((0 <=? y) && (y <? gy) && ((0 <=? x) && (x <? gx))) && ((0 <=? z) && (z <? gz)) then
        if (z <? rz) || (gz - rz <=? z) || (y <? ry) || (gy - ry <=? y) || (x <? rx) || (gx - rx <=? x) then edge
        else if init then inner else F (Some [z; y; x])
      else F (Some [z; y; x]).
Proof.
  intros R Hgz Hgy Hgx Hz Hy Hx Hr1 Hr2. unfold set_content.
  set (val := fun z y x (old : C) => if (z <? rz) || (gz - rz <=? z) || (y <? ry) || (gy - ry <=? y) || (x <? rx) || (gx - rx <=? x) then edge else if init then inner else old).
  destruct (each_zrange
    (fun z m => each (fun y m => sc_row init gx rx edge inner ((z <? rz) || (gz - rz <=? z) || (y <? ry) || (gy - ry <=? y)) (z * ex * ey + y * ex) m) (zrange 0 gy) m) 0 gz
    (fun k m => exists F', m3 [ez; ey; ex] m F' /\ forall z y x,
      F' (Some [z; y; x]) = if ((0 <=? y) && (y <? gy) && ((0 <=? x) && (x <? gx))) && ((0 <=? z) && (z <? k)) then val z y x (F (Some [z; y; x])) else F (Some [z; y; x])) ltac:(lia)) with (s := m) as (m' & E & F' & R' & HF).
  - intros z m1 Hk (F1 & R1 & HF1).
    destruct (each_zrange
      (fun y m => sc_row init gx rx edge inner ((z <? rz) || (gz - rz <=? z) || (y <? ry) || (gy - ry <=? y)) (z * ex * ey + y * ex) m) 0 gy
      (fun k m => exists F', m3 [ez; ey; ex] m F' /\ forall z' y x,
        F' (Some [z'; y; x]) = if ((0 <=? x) && (x <? gx)) && ((z' =? z) && (0 <=? y) && (y <? k)) then val z y x (F1 (Some [z'; y; x])) else F1 (Some [z'; y; x])) ltac:(lia)) with (s := m1) as (m2 & E2 & F2 & R2 & HF2).
    + intros y m2 Hk2 (F2 & R2 & HF2).
      destruct (sc_row_spec ez ey ex Hz Hy Hx init gx rx edge inner ((z <? rz) || (gz - rz <=? z) || (y <? ry) || (gy - ry <=? y)) z y m2 F2 R2) as (m3' & F3 & E3 & R3 & HF3); try lia.
      replace (gen_index [ez; ey; ex] [z; y; 0]) with (z * ex * ey + y * ex) in E3 by (cbn; ring).
      exists m3'. split; [exact E3|]. exists F3. split; [exact R3|]. intros z' y' x'. rewrite HF3, !HF2.
      destruct (Z.leb_spec 0 x'), (Z.ltb_spec x' gx), (Z.eqb_spec z' z), (Z.eqb_spec y' y); subst; cbn [andb]; try reflexivity.
      * replace (0 <=? y) with true by lia. replace (y <? y) with false by lia. replace (y <? y + 1) with true by lia. cbn [andb]. reflexivity.
      * destruct (Z.leb_spec 0 y'), (Z.ltb_spec y' y), (Z.ltb_spec y' (y + 1)); try lia; reflexivity.
    + exists F1. split; [exact R1|]. intros z' y x. destruct (Z.leb_spec 0 x), (Z.ltb_spec x gx), (Z.eqb_spec z' z), (Z.leb_spec 0 y), (Z.ltb_spec y 0); try lia; reflexivity.
    + exists m2. split; [exact E2|]. exists F2. split; [exact R2|]. intros z' y x. rewrite HF2, !HF1.
      destruct (Z.leb_spec 0 y), (Z.ltb_spec y gy), (Z.leb_spec 0 x), (Z.ltb_spec x gx); cbn [andb]; rewrite ?andb_false_r; try reflexivity.
      rewrite !andb_true_r. destruct (Z.eqb_spec z' z) as [->|].
      * destruct (Z.leb_spec 0 z), (Z.ltb_spec z z), (Z.ltb_spec z (z + 1)); try lia. reflexivity.
      * destruct (Z.leb_spec 0 z'), (Z.ltb_spec z' z), (Z.ltb_spec z' (z + 1)); try lia; reflexivity.
  - exists F. split; [exact R|]. intros z y x. destruct (Z.leb_spec 0 z), (Z.ltb_spec z 0); try lia; rewrite ?andb_false_r; reflexivity.
  - exists m', F'. split; [|split; [exact R'|]].
    + rewrite <- E. reflexivity.
    + intros z y x. rewrite HF. reflexivity.
Qed.

Lemma index3 ez ey ex i : 0 < ez -> 0 < ey -> 0 < ex -> 0 <= i < ez * (ey * ex) -> exists z y x, 0 <= z < ez /\ 0 <= y < ey /\ 0 <= x < ex /\ i = gen_index [ez; ey; ex] [z; y; x].
Proof.
  intros Hz Hy Hx Hi. exists (i / (ey * ex)), (i / ex mod ey), (i mod ex).
  assert (B0 : 0 <= i / (ey * ex) < ez) by (split; [apply Z.div_pos; nia|apply Z.div_lt_upper_bound; nia]).
  assert (E1 : i / (ey * ex) = i / ex / ey) by (rewrite Z.div_div by lia; f_equal; ring).
  pose proof (Z.div_mod i ex ltac:(lia)) as D1. pose proof (Z.mod_pos_bound i ex Hx) as M1.
  pose proof (Z.div_mod (i / ex) ey ltac:(lia)) as D2. pose proof (Z.mod_pos_bound (i / ex) ey Hy) as M2.
  rewrite E1 in B0 |- *. cbn [gen_index]. set (q := i / ex) in *. set (r := i mod ex) in *. set (q2 := q / ey) in *. set (r2 := q mod ey) in *. clearbody r r2 q2 q. clear E1. subst q. subst i.
  split; [exact B0|split; [lia|split; [lia|ring]]].
Qed.

Section Content.
Context (order : coord -> coord -> list (coord * coord)) (Ho : any_order order).

Lemma content_same {C} init ez ey ex gz gy gx rz ry rx (edge inner : C) m F : m3 [ez; ey; ex] m F ->
  0 < gz <= ez -> 0 < gy <= ey -> 0 < gx <= ex -> gz <= 65535 -> gy <= 262140 -> 0 <= rx -> 2 * rx <= gx ->
  cu_content order init [ez; ey; ex] [gz; gy; gx] [rz; ry; rx] edge inner m = set_content init [ez; ey; ex] [gz; gy; gx] [rz; ry; rx] edge inner m.
Proof using Ho.
  intros Rm Hz Hy Hx Lz Ly Hr1 Hr2. destruct (content_all init ez ey ex gz gy gx rz ry rx edge inner m F Rm) as (m' & F' & E & R' & HF); try lia. rewrite E. unfold cu_content.
  set (act := [gz; gy; gx]) in *. set (ext := [ez; ey; ex]) in *. set (rad := [rz; ry; rx]) in *.
  destruct (suits_launch gz gy gx (cu_block act) (cu_block_suits gz gy gx) ltac:(lia) ltac:(lia) ltac:(lia)) as (L1 & L2 & L3). fold act in L1, L3.
  set (block := cu_block act) in *. set (grid := blocks act block) in *.
  set (w := fun p => match edge_kernel init ext act rad edge inner p with Some ws => ws | None => [] end).
  assert (Hin : forall p, inside grid block p -> exists z y x, p = [z; y; x] /\ 0 <= z /\ 0 <= y /\ 0 <= x).
  { clearbody grid block. intros p Hp. unfold inside in Hp. destruct grid as [|a1 [|a2 [|a3 [|]]]]; try contradiction. destruct block as [|b1 [|b2 [|b3 [|]]]]; try contradiction. destruct Hp as (z & y & x & -> & A & B & D).
    exists z, y, x. split; [reflexivity|]. lia. }
  assert (Hw : forall z y x i v, 0 <= z -> 0 <= y -> 0 <= x -> In (i, v) (w [z; y; x]) -> z < gz /\ y < gy /\ x < gx /\ i = gen_index ext [z; y; x] /\ F' (Some [z; y; x]) = v).
  { intros z y x i v A B D H. unfold w, edge_kernel, act, rad in H. destruct (Z.leb_spec gx x), (Z.leb_spec gy y), (Z.leb_spec gz z); cbn [orb] in H; try (destruct H; fail).
    rewrite HF. replace (((0 <=? y) && (y <? gy) && ((0 <=? x) && (x <? gx))) && ((0 <=? z) && (z <? gz))) with true by lia.
    replace ((x <? rx) || (gx - rx <=? x) || (y <? ry) || (gy - ry <=? y) || (z <? rz) || (gz - rz <=? z)) with ((z <? rz) || (gz - rz <=? z) || (y <? ry) || (gy - ry <=? y) || (x <? rx) || (gx - rx <=? x)) in H
      by (destruct (x <? rx), (gx - rx <=? x), (y <? ry), (gy - ry <=? y), (z <? rz), (gz - rz <=? z); reflexivity).
    destruct ((z <? rz) || (gz - rz <=? z) || (y <? ry) || (gy - ry <=? y) || (x <? rx) || (gx - rx <=? x)); [|destruct init; [|destruct H]]; destruct H as [H|[]];
      (split; [lia|split; [lia|split; [lia|]]]); split; congruence. }
  assert (Hinj : forall z y x z' y' x', 0 <= z < ez -> 0 <= y < ey -> 0 <= x < ex -> 0 <= z' < ez -> 0 <= y' < ey -> 0 <= x' < ex -> gen_index ext [z; y; x] = gen_index ext [z'; y'; x'] -> [z; y; x] = [z'; y'; x']).
  { intros z y x z' y' x' A1 A2 A3 B1 B2 B3 Eg. unfold ext in Eg. rewrite !gen_to in Eg. apply (to_index_inj [ez; ey; ex]) in Eg; auto; [repeat constructor; lia|..]; unfold in_grid; cbn; lia. }
  pose proof Rm as (e0 & _ & Lm & _ & Gm). cbn [g_cells] in Lm, Gm. pose proof R' as (e1 & _ & Lm' & _ & Gm'). cbn [g_cells] in Lm', Gm'.
  assert (Np : prod ext = ez * (ey * ex)) by (unfold ext; cbn; ring). rewrite Np in Lm, Lm'. assert (Lz0 : Z.of_nat (length m) = ez * (ey * ex)) by (rewrite Lm, Z2Nat.id; [reflexivity|repeat apply Z.mul_nonneg_nonneg; lia]). assert (Hll : length m' = length m) by congruence. clear Lm Lm'.
  assert (Hbound : forall z y x, 0 <= z < ez -> 0 <= y < ey -> 0 <= x < ex -> 0 <= gen_index ext [z; y; x] < Z.of_nat (length m)).
  { intros z y x A1 A2 A3. rewrite Lz0, <- Np. unfold ext. rewrite gen_to. apply to_index_bound; [repeat constructor; lia|unfold in_grid; cbn; lia]. }
  assert (Hk : forall z y x, exists ws, edge_kernel init ext act rad edge inner [z; y; x] = Some ws /\ (ws = [] \/ exists i v, ws = [(i, v)])).
  { intros z y x. unfold edge_kernel, act, rad. destruct ((gx <=? x) || (gy <=? y) || (gz <=? z)); [eauto|].
    destruct ((x <? rx) || (gx - rx <=? x) || (y <? ry) || (gy - ry <=? y) || (z <? rz) || (gz - rz <=? z)); [eauto 6|]. destruct init; eauto 6. }
  destruct (launch_spec order (edge_kernel init ext act rad edge inner) w grid block m (Ho _ _) L1 L2) as (m2 & E2 & N2 & G2 & G2').
  - intros p Hp. destruct (Hin p Hp) as (z & y & x & -> & A & B & D). unfold w. destruct (Hk z y x) as (ws & Ek & _). now rewrite Ek.
  - intros p Hp. destruct (Hin p Hp) as (z & y & x & -> & A & B & D). split.
    + unfold w. destruct (Hk z y x) as (ws & Ek & Hws). rewrite Ek. destruct Hws as [->|(i & v & ->)]; repeat constructor; try intros [].
    + intros i v Hi. apply Hw in Hi; auto. destruct Hi as (B1 & B2 & B3 & -> & _). apply Hbound; lia.
  - intros p p' i v v' Hp Hp' Hi Hi'. destruct (Hin p Hp) as (z & y & x & -> & A & B & D). destruct (Hin p' Hp') as (z' & y' & x' & -> & A' & B' & D').
    apply Hw in Hi; auto. apply Hw in Hi'; auto. destruct Hi as (I1 & I2 & I3 & I4 & _), Hi' as (J1 & J2 & J3 & J4 & _). apply Hinj; try lia; congruence.
  - rewrite E2. f_equal. apply SellFacts.vec_get_ext; [lia|]. intros i Hi. rewrite N2, Lz0 in Hi.
    destruct (index3 ez ey ex i ltac:(lia) ltac:(lia) ltac:(lia) ltac:(lia)) as (z & y & x & Q1 & Q2 & Q3 & ->). fold ext.
    assert (Hg' : vec_get m' (gen_index ext [z; y; x]) = Some (F' (Some [z; y; x]))) by (unfold ext; rewrite gen_to; apply Gm'; unfold in_grid; cbn; lia).
    assert (Hg : vec_get m (gen_index ext [z; y; x]) = Some (F (Some [z; y; x]))) by (unfold ext; rewrite gen_to; apply Gm; unfold in_grid; cbn; lia).
    rewrite Hg'. destruct (w [z; y; x]) as [|[i v] ws] eqn:Ew.
    + rewrite G2'.
      * rewrite Hg, HF. unfold w, edge_kernel, act, rad in Ew. clear HF.
        destruct (Z.leb_spec gx x), (Z.leb_spec gy y), (Z.leb_spec gz z); cbn [orb] in Ew;
          try (replace (((0 <=? y) && (y <? gy) && ((0 <=? x) && (x <? gx))) && ((0 <=? z) && (z <? gz))) with false by lia; reflexivity).
        replace (((0 <=? y) && (y <? gy) && ((0 <=? x) && (x <? gx))) && ((0 <=? z) && (z <? gz))) with true by lia.
        replace ((x <? rx) || (gx - rx <=? x) || (y <? ry) || (gy - ry <=? y) || (z <? rz) || (gz - rz <=? z)) with ((z <? rz) || (gz - rz <=? z) || (y <? ry) || (gy - ry <=? y) || (x <? rx) || (gx - rx <=? x)) in Ew
          by (destruct (x <? rx), (gx - rx <=? x), (y <? ry), (gy - ry <=? y), (z <? rz), (gz - rz <=? z); reflexivity).
        destruct ((z <? rz) || (gz - rz <=? z) || (y <? ry) || (gy - ry <=? y) || (x <? rx) || (gx - rx <=? x)); [discriminate|]. destruct init; [discriminate|reflexivity].
      * intros p v Hp Hc. destruct (Hin p Hp) as (z' & y' & x' & -> & A & B & D). pose proof (Hw _ _ _ _ _ A B D Hc) as (I1 & I2 & I3 & I4 & _).
        assert (Ep : [z; y; x] = [z'; y'; x']) by (apply Hinj; auto; lia). rewrite <- Ep, Ew in Hc. destruct Hc.
    + assert (Hi' : In (i, v) (w [z; y; x])) by (rewrite Ew; now left). pose proof (Hw z y x i v ltac:(lia) ltac:(lia) ltac:(lia) Hi') as (I1 & I2 & I3 & -> & I5).
      rewrite I5. apply (G2 [z; y; x]); [apply L3; lia|exact Hi'].
Qed.

(** ** Operations *)
Context {C : Type} (t : topology) (R : Z) (sizes : coord -> option coord).
Context (Hl3 : (length t <= 3)%nat) (Hne : t <> []) (HR : 0 <= R) (Hsz : sizes_ok sizes) (Hgpu : gpu_sizes sizes).

Lemma fill_same dims (g : sgrid C) init edge inner ext F : length dims = length t -> allpos dims -> sizes (soa_dims t R dims) = Some ext ->
  sg_rad g = edge_radii t R -> sg_act g = soa_dims t R dims -> m3 ext (sg_mem g) F ->
  cu_content order init ext (sg_act g) (sg_rad g) edge inner (sg_mem g) = set_content init ext (sg_act g) (sg_rad g) edge inner (sg_mem g).
Proof using Ho Hl3 Hne HR Hsz Hgpu.
  intros Hl Hp Es Er Ea Hm. destruct (radii_3 t R Hl3 Hne HR dims (eq_sym Hl) Hp) as (rz & ry & rx & gz & gy & gx & E1 & E2 & L1 & L2).
  destruct (sizes_3 t R sizes Hl3 Hne HR Hsz dims ext (eq_sym Hl) Hp Es) as (ez & ey & ex & gz' & gy' & gx' & -> & E2' & M1 & M2 & M3).
  assert (gz' = gz /\ gy' = gy /\ gx' = gx) as (-> & -> & ->) by (repeat split; congruence). rewrite E2 in Es. apply Hgpu in Es. destruct Es as [G1 G2].
  rewrite Ea, Er, E1, E2. apply (content_same init ez ey ex gz gy gx rz ry rx edge inner (sg_mem g) F); auto; lia.
Qed.

Context (b : box) (topo : coord).
Context (Hld : length (b_dim b) = length t) (Hlo : length (b_origin b) = length t) (Hp : allpos (b_dim b)).

Lemma edge_same (g : sgrid C) f (v : C) : srep t R sizes b topo g f -> cu_set_edge order sizes g v = sg_set_edge sizes g v.
Proof using Ho Hl3 Hne HR Hsz Hgpu Hld Hlo Hp.
  intros (H1 & H2 & H3 & H4 & H5 & ez & ey & ex & F & H6 & H7 & H8). unfold cu_set_edge, sg_set_edge.
  pose proof (fill_same (b_dim b) g false v v [ez; ey; ex] F Hld Hp H6 H3 H4 H7) as E. rewrite H4 in *. rewrite H6. cbn [obind]. now rewrite E.
Qed.

Lemma make_same (junk : Z -> C) (dflt edge : C) : cu_make order t R sizes junk b dflt edge topo = sg_make t R sizes junk b dflt edge topo.
Proof using Ho Hl3 Hne HR Hsz Hgpu Hld Hlo Hp.
  unfold cu_make, sg_make, sg_resize0. cbn [sg_rad sg_act sg_mem sg_topo sg_edge]. rewrite (act_dims t R (b_dim b) (eq_sym Hld) Hl3 Hne). unfold mem_resize.
  destruct (soa_dims_3 t R Hl3 Hne HR (b_dim b) (eq_sym Hld) Hp) as (gz & gy & gx & Eg & L1 & L2 & L3).
  destruct (CoordModel.coord_eqb [0; 0; 0] (soa_dims t R (b_dim b))) eqn:Ec; [apply coord_eqb_eq in Ec; rewrite Eg in Ec; exfalso; assert (gx = 0) by congruence; lia|].
  destruct (sizes (soa_dims t R (b_dim b))) as [e|] eqn:Es; [|reflexivity]. cbn [option_map obind sg_act sg_rad sg_mem]. rewrite Es. cbn [obind].
  destruct (sizes_3 t R sizes Hl3 Hne HR Hsz (b_dim b) e (eq_sym Hld) Hp Es) as (ez & ey & ex & gz' & gy' & gx' & -> & Eg' & M1 & M2 & M3).
  destruct (m3_map junk [ez; ey; ex]) as (F & RF); [repeat constructor; lia|].
  f_equal. apply (fill_same (b_dim b) (mkSGrid b topo edge (edge_radii t R) (soa_dims t R (b_dim b)) (map junk (zrange 0 (prod [ez; ey; ex])))) true edge dflt _ F); auto.
Qed.

Lemma resize_same (junk : Z -> C) b0 (g : sgrid C) f : length (b_dim b0) = length t -> allpos (b_dim b0) -> srep t R sizes b0 topo g f ->
  cu_resize order sizes junk g b = sg_resize sizes junk g b.
Proof using Ho Hl3 Hne HR Hsz Hgpu Hld Hlo Hp.
  intros Hld0 Hp0 (H1 & H2 & H3 & H4 & H5 & ez & ey & ex & F & H6 & H7 & H8). unfold cu_resize, sg_resize.
  destruct (sg_resize0 sizes junk g b) as [g'|] eqn:E0; [|reflexivity]. cbn [obind]. unfold sg_resize0 in E0. rewrite H3, (act_dims t R (b_dim b) (eq_sym Hld) Hl3 Hne), H4 in E0.
  destruct (mem_resize sizes junk (soa_dims t R (b_dim b0)) (sg_mem g) (soa_dims t R (b_dim b))) as [m|] eqn:Em; [|discriminate]. cbn [option_map] in E0. injection E0 as <-.
  unfold cu_set_edge, sg_set_edge. cbn [sg_act sg_rad sg_mem sg_edge sg_box sg_topo].
  assert (Hc : exists e F', sizes (soa_dims t R (b_dim b)) = Some e /\ m3 e m F').
  { unfold mem_resize in Em. destruct (CoordModel.coord_eqb (soa_dims t R (b_dim b0)) (soa_dims t R (b_dim b))) eqn:Ec.
    - apply coord_eqb_eq in Ec. injection Em as <-. rewrite <- Ec. eauto.
    - destruct (sizes (soa_dims t R (b_dim b))) as [e|] eqn:Es; [|discriminate]. cbn [option_map] in Em. injection Em as <-.
      destruct (sizes_3 t R sizes Hl3 Hne HR Hsz (b_dim b) e (eq_sym Hld) Hp Es) as (ez' & ey' & ex' & gz & gy & gx & -> & Eg & M1 & M2 & M3).
      destruct (m3_map junk [ez'; ey'; ex']) as (F' & RF); [repeat constructor; lia|]. exists [ez'; ey'; ex'], F'. auto. }
  destruct Hc as (e & F' & Es & Hm). rewrite Es. cbn [obind]. f_equal.
  apply (fill_same (b_dim b) (mkSGrid b (sg_topo g) (sg_edge g) (edge_radii t R) (soa_dims t R (b_dim b)) m) false (sg_edge g) (sg_edge g) e F'); auto.
Qed.

Context (correct : bool) (Htopo : correct = true -> Forall2 Z.le (b_dim b) topo).

Lemma place_3 (g : sgrid C) f c : srep t R sizes b topo g f -> length c = length t -> exists z y x, cu_place g c = [z; y; x] /\ emb t R c = [z; y; x].
Proof using Hl3.
  intros (_ & _ & H3 & _) Hc. unfold cu_place. rewrite H3. fold (emb t R c). pose proof (emb_length t R c Hc Hl3) as Hl. destruct (emb t R c) as [|z [|y [|x [|]]]]; try discriminate. eauto 6.
Qed.

Lemma get_same (junk : Z -> C) (g : sgrid C) f c : srep t R sizes b topo g f -> soa_coord t correct b topo c -> cu_get order t correct sizes junk g c = sg_get t correct sizes g c.
Proof using Ho Hl3 Hne HR Hsz Hgpu Hld Hlo Hp Htopo.
  intros Rg Hc. pose proof (srep_get t R sizes Hl3 Hne HR Hsz b topo Hld Hlo Hp correct Htopo g f c Rg Hc) as Eg. pose proof Rg as (H1 & H2 & H3 & H4 & H5 & ez & ey & ex & F & H6 & H7 & H8).
  unfold cu_get, sg_get in *. rewrite H1 in *. destruct (sg_coord_cases t R sizes Hl3 Hne HR Hsz b topo Hld Hlo Hp correct Htopo g f c Rg Hc) as [[E _]|(E & _ & Hi)]; rewrite E in *; [reflexivity|].
  rewrite H4, H6 in *. cbn [obind] in *. rewrite (index_emb t R sizes b topo g f _ Rg) in *. pose proof (in_grid_length _ _ Hi) as Hlc.
  destruct (place_3 g f (sg_coord t correct g c) Rg ltac:(lia)) as (z & y & x & Ep & Ee). rewrite Ep. rewrite Ee in *. rewrite Eg.
  rewrite (lfa_get_ok order Ho junk ez ey ex z y x 1 (sg_mem g) [f (ddenotes t correct b topo c)]); [reflexivity|]. change (Z.to_nat 1) with 1%nat. cbn [vec_read]. rewrite Eg. reflexivity.
Qed.

Lemma set_same (g : sgrid C) f c (v : C) : srep t R sizes b topo g f -> soa_coord t correct b topo c -> cu_set order t correct sizes g c v = sg_set t correct sizes g c v.
Proof using Ho Hl3 Hne HR Hsz Hgpu Hld Hlo Hp Htopo.
  intros Rg Hc. destruct (srep_set t R sizes Hl3 Hne HR Hsz b topo Hld Hlo Hp correct Htopo g f c v Rg Hc) as (g' & Eg & _). pose proof Rg as (H1 & H2 & H3 & H4 & H5 & ez & ey & ex & F & H6 & H7 & H8).
  unfold cu_set, sg_set in *. rewrite H1 in *. destruct (sg_coord_cases t R sizes Hl3 Hne HR Hsz b topo Hld Hlo Hp correct Htopo g f c Rg Hc) as [[E _]|(E & _ & Hi)]; rewrite E in *; [now apply (edge_same g f)|].
  rewrite H4, H6 in *. cbn [obind] in *. rewrite (index_emb t R sizes b topo g f _ Rg) in *. pose proof (in_grid_length _ _ Hi) as Hlc.
  destruct (place_3 g f (sg_coord t correct g c) Rg ltac:(lia)) as (z & y & x & Ep & Ee). rewrite Ep. rewrite Ee in *.
  destruct (vec_set (sg_mem g) (gen_index [ez; ey; ex] [z; y; x]) v) as [m'|] eqn:Ev; [|discriminate].
  rewrite (lfa_set_ok order Ho ez ey ex z y x [v] 1 (sg_mem g) m'); [reflexivity|cbn; lia|]. change (Z.to_nat 1) with 1%nat. cbn [vec_write]. rewrite Ev. reflexivity.
Qed.

Lemma origin_length (g : sgrid C) f s : srep t R sizes b topo g f -> s_x s < s_e s -> Forall (in_box b) (streak_coords s) -> length (sg_coord t correct g (s_origin s)) = length t.
Proof using Hl3 Hne HR Hsz Hld Hlo Hp Htopo.
  intros Rg Hx Hb. assert (Hin : in_box b (s_origin s)) by (rewrite Forall_forall in Hb; apply Hb; unfold s_origin; apply in_streak_coords; lia).
  rewrite (sg_coord_box t R sizes Hl3 Hne HR Hsz b topo Hld Hlo Hp correct Htopo g f _ Rg Hin). unfold in_box in Hin. apply in_box_zsub in Hin; [|lia]. rewrite zsub_length; lia.
Qed.

Lemma get_streak_same (junk : Z -> C) (g : sgrid C) f s : srep t R sizes b topo g f -> s_x s <= s_e s -> Forall (in_box b) (streak_coords s) ->
  cu_get_streak order t correct sizes junk g s = sg_get_streak t correct sizes g s.
Proof using Ho Hl3 Hne HR Hsz Hgpu Hld Hlo Hp Htopo.
  intros Rg Hx Hb. pose proof (srep_get_streak t R sizes Hl3 Hne HR Hsz b topo Hld Hlo Hp correct Htopo g f s Rg Hx Hb) as Eg. pose proof Rg as (H1 & H2 & H3 & H4 & H5 & ez & ey & ex & F & H6 & H7 & H8).
  unfold cu_get_streak, sg_get_streak in *. destruct (s_e s <? s_x s); [reflexivity|]. rewrite H4, H6 in *. cbn [obind] in *. rewrite Eg.
  destruct (Z.eq_dec (s_x s) (s_e s)) as [Ee|Hn].
  - rewrite Ee, Z.sub_diag in *. unfold lfa_get. rewrite line_none by lia. cbn in Eg. rewrite <- Eg. reflexivity.
  - pose proof (origin_length g f s Rg ltac:(lia) Hb) as Hlc. rewrite (index_emb t R sizes b topo g f _ Rg) in Eg.
    destruct (place_3 g f _ Rg Hlc) as (z & y & x & Ep & Ee). rewrite Ep. rewrite Ee in Eg. now apply lfa_get_ok.
Qed.

Lemma op_same (g : sgrid C) f (o : gop C) : srep t R sizes b topo g f -> access_ok (soa_coord t correct b topo) (in_box b) o ->
  cu_op order t correct sizes g o = sg_op t correct sizes g o.
Proof using Ho Hl3 Hne HR Hsz Hgpu Hld Hlo Hp Htopo.
  intros Rg Hok. destruct o as [c v|s vs|v]; cbn [cu_op sg_op access_ok] in *.
  - now apply (set_same g f).
  - destruct Hok as (Hx & Hb & Hv). destruct (srep_set_streak t R sizes Hl3 Hne HR Hsz b topo Hld Hlo Hp correct Htopo g f s vs Rg Hx Hb ltac:(lia)) as (g' & Eg & _).
    rewrite streak_coords_length in Hv. pose proof Rg as (H1 & H2 & H3 & H4 & H5 & ez & ey & ex & F & H6 & H7 & H8).
    unfold cu_set_streak, sg_set_streak in *. destruct (s_e s <? s_x s); [reflexivity|]. rewrite H4, H6 in *. cbn [obind] in *.
    destruct (Z.eq_dec (s_x s) (s_e s)) as [Ee|Hn].
    + rewrite Ee, Z.sub_diag in *. unfold lfa_set. cbn [Z.to_nat vec_read obind vec_write]. rewrite line_none by lia. reflexivity.
    + pose proof (origin_length g f s Rg ltac:(lia) Hb) as Hlc. rewrite (index_emb t R sizes b topo g f _ Rg) in *.
      destruct (place_3 g f _ Rg Hlc) as (z & y & x & Ep & Ee). rewrite Ep. rewrite Ee in *.
      destruct (vec_write (sg_mem g) (gen_index [ez; ey; ex] [z; y; x]) (Z.to_nat (s_e s - s_x s)) vs) as [m'|] eqn:Ev; [|discriminate].
      rewrite (lfa_set_ok order Ho ez ey ex z y x vs (s_e s - s_x s) (sg_mem g) m'); [reflexivity|lia|exact Ev].
  - now apply (edge_same g f).
Qed.

(** ** Regions *)
Context {M : Type} (K : nat) (part : nat -> C -> M) (assemble : list M -> C).

Lemma streaks_nonneg off ss : Forall (fun s => length t = S (length (s_pre s)) /\ s_x s < s_e s) ss -> Forall (fun s : coord * Z => 0 <= snd s) (map (offset_streak off) ss).
Proof using. clear. induction 1 as [|s ss [_ H] _ IH]; constructor; [cbn; lia|exact IH]. Qed.

Lemma load_same (g : sgrid C) f n r off buf : srep t R sizes b topo g f -> length t = S n -> rvalid n r -> length off = length t -> (forall c, inr n r c -> in_box b (zadd c off)) ->
  cu_load order sizes K assemble g r off buf = sg_load sizes K assemble g r off buf.
Proof using Ho Hl3 Hne HR Hsz Hgpu Hld Hlo Hp.
  clear Htopo correct part.
  intros Rg Hn Hr Hoff Hin. destruct (SoATransfer.region_streaks t n r Hn Hr) as (ss & cs & Es & Ec & Ef & Hs & _ & Hcs).
  pose proof (srep_load t R sizes Hl3 Hne HR Hsz b topo Hld Hlo Hp K assemble g f n r off buf cs Rg Hn Hr Hoff Hin Ec) as Hl.
  unfold cu_load, sg_load in *. rewrite Es in *. cbn [obind] in *. set (os := map (offset_streak (sg_offset g off)) ss) in *. pose proof (streaks_nonneg (sg_offset g off) ss Hs) as Hnn. fold os in Hnn.
  pose proof (sum_nonneg os Hnn) as Hsum.
  destruct (Z.ltb_spec (Z.of_nat (length buf)) (Z.of_nat K * sum_lengths os)); [reflexivity|].
  assert (Hl' : exists g', obind (sizes (sg_act g)) (fun ext => option_map (sg_with g) (mem_load K assemble ext buf (sum_lengths os) os 0 (sg_mem g))) = Some g').
  { assert (El : sum_lengths os = Z.of_nat (length cs)) by (unfold os; rewrite (SoATransfer.sum_len t _ _ Hs), Ef; reflexivity).
    destruct (Nat.ltb_spec (length buf) (K * length cs)); [nia|]. destruct Hl as (vs & g' & _ & Hl & _). eauto. }
  destruct Hl' as (g' & Hl'). clear Hl. destruct (sizes (sg_act g)) as [ext|]; [|discriminate]. cbn [obind] in *.
  destruct (mem_load K assemble ext buf (sum_lengths os) os 0 (sg_mem g)) as [m'|] eqn:Em; [|discriminate].
  destruct (vec_read buf 0 (Z.to_nat (Z.of_nat K * sum_lengths os))) as [raw|] eqn:Er.
  - cbn [obind]. apply vec_read_get in Er. destruct Er as [_ Gr]. rewrite (lfa_load_ok order Ho K assemble ext buf raw (sum_lengths os) os 0 (sg_mem g) m'); auto; try lia.
    intros i Hi. rewrite <- Gr by lia. f_equal.
  - exfalso. assert (Hh : forall k i, 0 <= i -> i + Z.of_nat k <= Z.of_nat (length buf) -> vec_read buf i k <> None).
    { induction k as [|k IH]; intros i Hi Hk; cbn; [discriminate|]. destruct (vec_get_ex buf i) as (v & Ev); [lia|]. rewrite Ev. cbn.
      specialize (IH (i + 1) ltac:(lia) ltac:(lia)). destruct (vec_read buf (i + 1) k); [discriminate|congruence]. }
    apply (Hh (Z.to_nat (Z.of_nat K * sum_lengths os)) 0); try lia. exact Er.
Qed.

Lemma save_same (mjunk : Z -> M) (g : sgrid C) f n r off room cs : srep t R sizes b topo g f -> length t = S n -> rvalid n r -> length off = length t -> (forall c, inr n r c -> in_box b (zadd c off)) ->
  region_coords r = Some cs ->
  cu_save order sizes K part mjunk g r off room = if room <? Z.of_nat K * Z.of_nat (length cs) then None else sg_save sizes K part g r off.
Proof using Ho Hl3 Hne HR Hsz Hgpu Hld Hlo Hp.
  clear Htopo correct assemble.
  intros Rg Hn Hr Hoff Hin Ecs. destruct (SoATransfer.region_streaks t n r Hn Hr) as (ss & cs' & Es & Ec & Ef & Hs & _ & Hcs). assert (cs' = cs) as -> by congruence.
  destruct (srep_save t R sizes Hl3 Hne HR Hsz b topo Hld Hlo Hp K part g f n r off Rg Hn Hr Hoff Hin) as (cs'' & _ & Hsv).
  unfold cu_save, sg_save in *. rewrite Es in *. cbn [obind] in *. set (os := map (offset_streak (sg_offset g off)) ss) in *. pose proof (streaks_nonneg (sg_offset g off) ss Hs) as Hnn. fold os in Hnn.
  pose proof (sum_nonneg os Hnn) as Hsum.
  assert (El : sum_lengths os = Z.of_nat (length cs)) by (unfold os; rewrite (SoATransfer.sum_len t _ _ Hs), Ef; reflexivity). rewrite El.
  destruct (room <? Z.of_nat K * Z.of_nat (length cs)); [reflexivity|]. destruct (sizes (sg_act g)) as [ext|]; [|discriminate]. cbn [obind] in *. unfold mem_save in *.
  destruct (read_streaks ext (sg_mem g) os) as [cells|] eqn:Er; [|discriminate]. clear Hsv. cbn [option_map].
  destruct (lfa_save_ok order Ho K part ext (sg_mem g) (Z.of_nat (length cs)) os 0 [] cells (map mjunk (zrange 0 (Z.of_nat K * Z.of_nat (length cs))))) as (buf' & E & [Hlb Hb] & Hlc); auto; try lia.
  { split; [rewrite map_length, zrange_length; lia|]. intros j q c _ Hq. apply SellFacts.vec_get_some in Hq. cbn in Hq. lia. }
  rewrite E. f_equal. cbn [app] in *. assert (Hlf : length (flat_map (fun j => map (part j) cells) (seq 0 K)) = (K * length cells)%nat).
  { clear. generalize 0%nat. induction K as [|K' IH]; intros s; [reflexivity|]. cbn [seq flat_map]. rewrite app_length, map_length, IH. lia. }
  apply SellFacts.vec_get_ext; [lia|]. intros i Hi. rewrite Hlb in Hi. set (L := Z.of_nat (length cs)) in *.
  assert (0 < L) by nia. pose proof (Z.div_mod i L ltac:(lia)) as D. pose proof (Z.mod_pos_bound i L ltac:(lia)) as B.
  assert (Hj : 0 <= i / L < Z.of_nat K) by (split; [apply Z.div_pos; lia|apply Z.div_lt_upper_bound; lia]).
  set (q := i / L) in *. set (rr := i mod L) in *. clearbody q rr. destruct (vec_get_ex cells rr) as (c & Ecell); [lia|].
  replace i with (Z.of_nat (Z.to_nat q) * L + rr) by lia. rewrite (Hb (Z.to_nat q) rr c ltac:(lia) Ecell). symmetry.
  rewrite <- (buffer_at part cells K 0 (Z.to_nat q) rr c ltac:(lia) Ecell). rewrite Nat.sub_0_r, Hlc. reflexivity.
Qed.
End Content.
