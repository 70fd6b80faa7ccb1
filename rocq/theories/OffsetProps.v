(** C124, C125, C126: where nodes store their part of the simulation area. *)
From Verif Require Import Base RegionSpec RegionModel RegionIterModel RegionRep RegionStreaks RegionHist RegionOpsModel RegionOps CoordModel CoordSpec CoordFacts HaloSpec PartitionManagerModel PartitionManagerFacts PatchModel GridModel GridSpec GridFacts DisplacedFacts GridReach StencilModel StencilSpec StencilProps UpdateModel UpdateSpec UpdateFacts UpdateProps OffsetModel OffsetSpec OffsetFacts NodeGridFacts.

(** ** The contents of a node's grid *)

Lemma node_rep {C} t b topo (d : dgrid C) : setup_ok t true b topo -> node_grid b topo d -> exists f,
  rep (b_dim b) (d_grid d) f.
Proof.
  intros (_ & _ & _ & Hp & _) (_ & _ & H3 & H4).
  exists (fun p => match p with Some q => match vec_get (g_cells (d_grid d)) (to_index q (b_dim b)) with Some v => v | None => g_edge (d_grid d) end | None => g_edge (d_grid d) end).
  split; [exact H3|]. split; [exact H4|]. split; [reflexivity|]. intros c Hc. pose proof (to_index_bound (b_dim b) Hp c Hc) as Hb.
  unfold vec_get. rewrite (proj2 (Z.ltb_ge _ _)) by lia. destruct (nth_error (g_cells (d_grid d)) (Z.to_nat (to_index c (b_dim b)))) eqn:E; [reflexivity|].
  apply nth_error_None in E. lia.
Qed.

Section Node.
Context (n : nat) (t : topology) (sim : box) (r : indices) (HN : node_region n t sim r) (b : box) (Eb : guess_offset t r sim = Some b).
Context {C : Type}.

Notation nrw := (narrow t (b_dim b) (b_dim sim)).
Notation org := (b_origin b).
Notation topo := (b_dim sim).

(** The same cells, without those parts of the area which aren't wrapped. *)
Definition thin (d : dgrid C) : dgrid C := mkDGrid (d_grid d) org nrw.

Lemma thin_loc (d : dgrid C) c : node_grid b topo d -> length c = S n -> dg_loc t true d c = dg_loc t true (thin d) c.
Proof using HN Eb.
  intros (H1 & H2 & H3 & _) Hc. pose proof HN as (Lt & _). unfold thin. rewrite <- (narrow_loc t b topo (d_grid d) c); [|eapply placed_setup; eauto|exact H3|lia].
  f_equal. destruct d as [g o p]. cbn in *. now subst.
Qed.

Lemma thin_get d c : node_grid b topo d -> length c = S n -> dg_get t true d c = dg_get t true (thin d) c.
Proof using HN Eb. intros Hd Hc. rewrite <- !deref_dg_get. now rewrite thin_loc. Qed.

Lemma thin_set d c v : node_grid b topo d -> length c = S n -> option_map (@d_grid C) (dg_set t true d c v) = option_map (@d_grid C) (dg_set t true (thin d) c v).
Proof using HN Eb.
  intros Hd Hc. unfold dg_set. pose proof (thin_loc d c Hd Hc) as E. unfold dg_loc in E. change (d_grid (thin d)) with (d_grid d) in *.
  rewrite <- !(store_set t (d_grid d)), E. now destruct (store _ _ _ _).
Qed.

Lemma thin_rep d : node_grid b topo d -> exists f, drep b nrw (thin d) f /\ f None = g_edge (d_grid d).
Proof using HN Eb.
  intros Hd. destruct (node_rep t b topo d (placed_setup n t sim r HN b Eb) Hd) as (f & Hf). exists f. split; [split; [reflexivity|split; [reflexivity|exact Hf]]|]. now destruct Hf as (_ & _ & -> & _).
Qed.

Lemma place_self c : inr n r c -> sim_place t sim c = Some c.
Proof using HN Eb.
  intros Hc. pose proof HN as (Lt & Lso & Ls & _). destruct (region_in_sim n t sim r HN c Hc) as [Lc Hcs]. pose proof (sim_pos n t sim r HN b Eb) as Hp.
  unfold sim_place. assert (E : denotes t topo (zsub c (b_origin sim)) = Some (zsub c (b_origin sim))).
  { apply denotes_self; auto; [lia|]. apply in_grid_axis. split; [rewrite zsub_length; lia|]. intros i Hi. rewrite axis_zsub by lia. specialize (Hcs i ltac:(lia)). lia. }
  rewrite E. cbn [option_map]. assert (Lz : length (zsub c (b_origin sim)) = S n) by (rewrite zsub_length; lia). f_equal. apply axis_ext; [rewrite zadd_length'; lia|]. intros i _.
  rewrite axis_zadd by lia. rewrite axis_zsub by lia. lia.
Qed.

Definition slot (c : coord) : place := Some (zsub (home org topo c) org).

Lemma own_place c : inr n r c -> reachable_coord t true b nrw c /\ ddenotes t true b nrw c = slot c.
Proof using HN Eb.
  intros Hc. destruct (region_in_sim n t sim r HN c Hc) as [Lc _]. destruct (locate n t sim r HN b Eb c c Hc Lc) as [H1 H2].
  - intros; lia.
  - intros c2 E. rewrite (place_self c Hc) in E. assert (c = c2) as <- by congruence. exact Hc.
  - split; [exact H1|]. rewrite H2, (place_self c Hc). reflexivity.
Qed.

Lemma slot_inj a c : inr n r a -> inr n r c -> slot a = slot c -> a = c.
Proof using HN Eb.
  intros Ha Hc E. destruct (placed n t sim r HN b Eb) as (Lo & Lb & HA). pose proof HN as (Lt & Lso & Ls & _).
  destruct (region_in_sim n t sim r HN a Ha) as [La Has]. destruct (region_in_sim n t sim r HN c Hc) as [Lc Hcs].
  assert (E' : zsub (home org topo a) org = zsub (home org topo c) org) by (unfold slot in E; congruence).
  apply sub_inj in E'; [|rewrite home_length; lia|rewrite !home_length; lia].
  apply axis_ext; [lia|]. intros i Hi. specialize (Has i ltac:(lia)). specialize (Hcs i ltac:(lia)). assert (E2 : axis i (home org topo a) = axis i (home org topo c)) by now rewrite E'.
  rewrite !axis_home in E2 by lia. destruct (HA i ltac:(lia)) as (A1 & A2 & _). cbv zeta in A1, A2.
  destruct (_ <? _) in E2; destruct (_ <? _) in E2; lia.
Qed.

Lemma thin_holds d f : node_grid b topo d -> drep b nrw (thin d) f -> forall c, inr n r c -> dg_get t true d c = Some (f (slot c)).
Proof using HN Eb.
  intros Hd Hf c Hc. destruct (region_in_sim n t sim r HN c Hc) as [Lc _]. rewrite thin_get by auto. destruct (own_place c Hc) as [H1 <-].
  apply (drep_get t true b nrw (narrow_setup n t sim r HN b Eb) _ _ _ Hf H1).
Qed.

Lemma node_with (d : dgrid C) g f : node_grid b topo d -> rep (b_dim b) g f -> node_grid b topo (dg_with d g).
Proof using. intros (H1 & H2 & _) (R1 & R2 & _). split; [exact H1|]. split; [exact H2|]. split; [exact R1|exact R2]. Qed.

(** Writing. *)
Lemma set_spec (d : dgrid C) f edge c v : node_grid b topo d -> holds n t d r f edge -> inr n r c -> exists d',
  dg_set t true d c v = Some d' /\ node_grid b topo d' /\ holds n t d' r (fun c' => if list_eq_dec Z.eq_dec c c' then v else f c') edge.
Proof using HN Eb.
  intros Hd [Hf He] Hc. pose proof (narrow_setup n t sim r HN b Eb) as Hs. destruct (thin_rep d Hd) as (fp & Hr & Hr0). destruct (own_place c Hc) as [H1 H2].
  destruct (region_in_sim n t sim r HN c Hc) as [Lc _].
  destruct (drep_op t true b nrw Hs (thin d) fp (GSet c v) Hr H1) as (d1 & E1 & R1). cbn [dg_op] in E1.
  pose proof (thin_set d c v Hd Lc) as E. rewrite E1 in E. cbn [option_map] in E. destruct (dg_set t true d c v) as [d'|] eqn:Es; [|discriminate].
  cbn [option_map] in E. assert (Eg : d_grid d' = d_grid d1) by congruence. clear E.
  assert (Ed : d' = dg_with d (d_grid d')) by (unfold dg_set in Es; destruct (grid_set _ _ _ _); [cbn in Es; injection Es as <-; reflexivity|discriminate]).
  destruct R1 as (_ & _ & R1). rewrite <- Eg in R1. exists d'. split; [reflexivity|].
  assert (Hn' : node_grid b topo d') by (rewrite Ed; now apply (node_with d (d_grid d') _ Hd R1)). split; [exact Hn'|].
  assert (R2 : drep b nrw (thin d') (last_written fp (writes (ddenotes t true b nrw) (GSet c v)))) by (split; [reflexivity|split; [reflexivity|exact R1]]).
  cbn [writes] in R2. rewrite H2 in R2. split.
  - intros c' Hc'. rewrite (thin_holds d' _ Hn' R2 c' Hc'). f_equal. cbn [last_written fold_left fst snd].
    specialize (Hf c' Hc'). rewrite (thin_holds d fp Hd Hr c' Hc') in Hf.
    destruct (place_dec (slot c) (slot c')) as [Ep|Ep]; destruct (list_eq_dec Z.eq_dec c c') as [El|El]; [reflexivity| | |congruence].
    + exfalso. apply El. now apply slot_inj.
    + exfalso. apply Ep. now rewrite El.
  - destruct R1 as (_ & _ & -> & _). cbn [writes last_written fold_left fst snd]. rewrite H2. unfold slot. destruct (place_dec _ _); [discriminate|]. now rewrite Hr0.
Qed.

Lemma sets_spec ws : forall (d : dgrid C) f edge, node_grid b topo d -> holds n t d r f edge -> Forall (fun w => inr n r (fst w)) ws -> exists d',
  dg_ops t true d (map (fun w => GSet (fst w) (snd w)) ws) = Some d' /\ node_grid b topo d' /\
  holds n t d' r (fun c => fold_left (fun acc w => if list_eq_dec Z.eq_dec (fst w) c then snd w else acc) ws (f c)) edge.
Proof using HN Eb.
  induction ws as [|[c v] ws IH]; intros d f edge Hd Hf Hws; [exists d; auto|]. pose proof (Forall_inv Hws) as H1. pose proof (Forall_inv_tail Hws) as H2. cbn [fst] in H1.
  destruct (set_spec d f edge c v Hd Hf H1) as (d1 & E1 & N1 & F1). destruct (IH d1 _ edge N1 F1 H2) as (d' & E' & N' & F').
  exists d'. cbn [map dg_ops dg_op fst snd]. rewrite E1. cbn [obind]. auto.
Qed.

Lemma make_spec dflt edge : node_grid b topo (dg_make (C := C) b dflt edge topo) /\ holds n t (dg_make (C := C) b dflt edge topo) r (fun _ => dflt) edge.
Proof using HN Eb.
  pose proof (narrow_setup n t sim r HN b Eb) as Hs. assert (Hg : node_grid b topo (dg_make (C := C) b dflt edge topo)).
  { split; [reflexivity|]. split; [reflexivity|]. split; [reflexivity|]. apply repeat_length. }
  split; [exact Hg|]. split; [|reflexivity]. intros c Hc. rewrite (thin_holds _ (fresh dflt edge) Hg); [reflexivity| |exact Hc].
  apply (drep_make t true b nrw Hs dflt edge).
Qed.
End Node.

(** ** C124: placement *)

(** The grid fits into the simulation area, and there is a place for each cell
    of the region: at its coordinate, or one or more periods of the topology
    apart from it. *)
Theorem C124_place : forall n t sim r, node_region n t sim r ->
  exists b, guess_offset t r sim = Some b /\ setup_ok t true b (b_dim sim) /\
    forall c, inr n r c -> exists c', in_box b c' /\ same_cell t (b_dim sim) c c'.
Proof.
  intros n t sim r HN. pose proof HN as (Lt & Lso & Ls & _).
  destruct (offset_axes_spec t r sim (length t)) as (b & E & _ & _ & _).
  { intros i Hi. destruct (offset_axis_spec n t sim r HN i ltac:(lia)) as (o & m & E & _). eauto. }
  exists b. split; [exact E|]. split; [exact (placed_setup n t sim r HN b E)|]. intros c Hc. destruct (region_in_sim n t sim r HN c Hc) as [Lc _].
  destruct (kshift_axis n t sim r HN b E c 0 Hc) as [Lk _].
  exists (zadd c (kshift sim b c)). split; [exact (home_in_box n t sim r HN b E c Hc)|]. split; [lia|]. split; [rewrite zadd_length'; lia|].
  intros i Hi. rewrite axis_zadd by lia. rewrite (proj2 (kshift_axis n t sim r HN b E c i Hc)). destruct (placed n t sim r HN b E) as (_ & _ & HA). destruct (HA i ltac:(lia)) as (_ & _ & _ & A4 & _).
  unfold same_pos. destruct (wraps_axis t i); [destruct (_ <? _); [exists 1|exists 0]; lia|].
  destruct (A4 eq_refl) as [_ A4']. specialize (A4' c Hc). rewrite (proj2 (Z.ltb_ge _ _)) by lia. lia.
Qed.
Print Assumptions C124_place.

(** Hence the cells of the region, addressed by their coordinates within the
    simulation area, read back what has been written to them. *)
Theorem C124_read_back : forall C n t sim r b dflt edge (ws : list (coord * C)), node_region n t sim r -> guess_offset t r sim = Some b ->
  Forall (fun w => inr n r (fst w)) ws ->
  exists d, dg_ops t true (dg_make b dflt edge (b_dim sim)) (map (fun w => GSet (fst w) (snd w)) ws) = Some d /\
    node_grid b (b_dim sim) d /\ holds n t d r (last_value dflt ws) edge.
Proof.
  intros C n t sim r b dflt edge ws HN Eb Hws. destruct (make_spec n t sim r HN b Eb (C := C) dflt edge) as [H1 H2].
  exact (sets_spec n t sim r HN b Eb ws _ _ edge H1 H2 Hws).
Qed.
Print Assumptions C124_read_back.

(** ** C125: no grid is larger than necessary *)

Theorem C125_minimal : forall n t sim r b i a w, node_region n t sim r -> guess_offset t r sim = Some b -> (i < length t)%nat ->
  covers n r t (b_dim sim) i a w -> axis i (b_dim b) <= w.
Proof.
  intros n t sim r b i a w HN Eb Hi Hc. pose proof HN as (Lt & _). destruct (placed n t sim r HN b Eb) as (_ & _ & HA). destruct (HA i ltac:(lia)) as (_ & _ & _ & _ & _ & A6). now apply (A6 a).
Qed.
Print Assumptions C125_minimal.

(** ** C126: updates *)

Lemma run_bodies_ext {C} (b1 b2 : streak -> vgrid C -> option (vgrid C)) ss : forall g, (forall s g, In s ss -> b1 s g = b2 s g) -> run_bodies b1 ss g = run_bodies b2 ss g.
Proof.
  induction ss as [|s ss IH]; intros g H; [reflexivity|]. cbn [run_bodies]. rewrite (H s g) by now left. destruct (b2 s g) as [g1|]; [|reflexivity]. cbn [obind]. apply IH. intros; apply H; now right.
Qed.

(** The cells of a part of the region are updated as if the whole simulation
    area were stored at once, provided that the region has all their neighbors:
    on both paths, in any order of the Streaks. The other cells are left
    alone. *)
Theorem C126_updates : forall C st upd n t sim r b (d dn : dgrid C) f edge fN edgeN r' ss body,
  node_region n t sim r -> guess_offset t r sim = Some b -> node_grid b (b_dim sim) d -> node_grid b (b_dim sim) dn ->
  holds n t d r f edge -> holds n t dn r fN edgeN ->
  rvalid n r' -> (forall c, inr n r' c -> inr n r c) -> work_order r' ss -> line_stencil st -> st_dim st = length t ->
  (forall c c1 c2, inr n r' c -> In c1 (neighbors st c) -> sim_place t sim c1 = Some c2 -> inr n r c2) ->
  body = van_body st upd (d_grid d) (dg_loc t true d) (dg_loc t true dn) (zeros (b_dim b)) (zeros (b_dim b)) \/
  body = lp_body st upd t (d_grid d) (dg_loc t true d) b (dg_loc t true dn) (zeros (b_dim b)) (zeros (b_dim b)) ->
  exists g', run_bodies body ss (d_grid dn) = Some g' /\ node_grid b (b_dim sim) (dg_with dn g') /\
    (forall c, inr n r' c -> dg_get t true (dg_with dn g') c = Some (upd (map (sim_read t sim f edge) (neighbors st c)) (fN c))) /\
    (forall c, inr n r c -> ~ inr n r' c -> dg_get t true (dg_with dn g') c = Some (fN c)) /\ g_edge g' = edgeN.
Proof.
  intros C st upd n t sim r b d dn f edge fN edgeN r' ss body HN Eb Hd Hdn [Hf He] [HfN HeN] Hrv Hsub Hw Hst Hdim Hnb Hbody.
  pose proof HN as (Lt & Lso & Ls & _). destruct (placed n t sim r HN b Eb) as (Lo & Lb & _). pose proof (narrow_setup n t sim r HN b Eb) as Hs.
  destruct (work_order_spec n r' ss Hrv Hw) as (Hss & Hnd & Hin). destruct (line_stencil_facts st Hst) as (B & _ & Htab & _). pose proof Hst as (_ & H3 & _).
  assert (Hrow : forall s, In s ss -> Forall (inr n r) (streak_coords s)).
  { intros s Hsin. apply Forall_forall. intros c Hc. apply Hsub, Hin. apply in_flat_map. eauto. }
  rewrite Forall_forall in Hss.
  set (nrw := narrow t (b_dim b) (b_dim sim)). set (z := zeros (b_dim b)). assert (Lz : length z = S n) by (unfold z, zeros; rewrite map_length; lia).
  set (td := thin t sim b d). set (tdn := thin t sim b dn).
  assert (Heq : forall g, run_bodies body ss g = run_bodies (van_body st upd (d_grid td) (dg_loc t true td) (dg_loc t true tdn) z z) ss g).
  { intros g. apply run_bodies_ext. clear g. intros s g Hsin. destruct (Hss s Hsin) as [Hp Hx].
    transitivity (van_body st upd (d_grid d) (dg_loc t true d) (dg_loc t true dn) z z s g).
    - destruct Hbody as [->| ->]; [reflexivity|]. exact (lp_van n t sim r HN b Eb d dn Hd Hdn st Hst Hdim upd s Hp Hx (Hrow s Hsin) g).
    - unfold van_body. unfold z. rewrite (move_zeros s) by lia. cbv zeta. rewrite zadd_zeros' by (unfold s_origin; rewrite app_length; cbn [length]; lia).
      change (d_grid td) with (d_grid d). unfold s_origin. rewrite removelast_last, last_last. apply van_loop_ext.
      + intros j Hj. apply Forall_forall. intros e He'. apply (thin_loc n t sim r HN b Eb d _ Hd). destruct (Hss s Hsin) as [Hp' _].
        assert (L1 : forall x, length (s_pre s ++ [x]) = S n) by (intros; rewrite app_length; cbn [length]; lia). specialize (L1 (s_x s + j)).
        pose proof (fc_length (st_dim st) (snd e) H3) as L2. rewrite zadd_length'; lia.
      + intros j Hj. apply (thin_loc n t sim r HN b Eb dn _ Hdn). rewrite app_length. cbn [length]. lia. }
  rewrite Heq. clear Heq Hbody body.
  destruct (thin_rep n t sim r HN b Eb d Hd) as (p & Rp & Rp0). destruct (thin_rep n t sim r HN b Eb dn Hdn) as (pN & RpN & RpN0). fold td in Rp. fold tdn in RpN. fold nrw in Hs, Rp, RpN.
  assert (Hz : forall c, length c = S n -> zadd c z = c) by (intros c Lc; unfold z; apply zadd_zeros'; lia).
  assert (Lin : forall c, inr n r c -> length c = S n) by (intros c Hc; exact (proj1 (region_in_sim n t sim r HN c Hc))).
  assert (Hnear : forall c c1, inr n r' c -> In c1 (neighbors st c) -> reachable_coord t true b nrw c1 /\ p (ddenotes t true b nrw c1) = sim_read t sim f edge c1).
  { intros c c1 Hc Hc1. pose proof (Lin c (Hsub c Hc)) as Lc. pose proof Hc1 as Hc1'. unfold neighbors in Hc1'. apply in_map_iff in Hc1'. destruct Hc1' as (e & E1 & He1). specialize (Htab e He1).
    destruct (fc_near n st c (snd e) Hst ltac:(lia) Htab Lc) as [Ln Hn1]. rewrite E1 in Ln, Hn1.
    destruct (locate n t sim r HN b Eb c c1 (Hsub c Hc) Ln (fun i _ => Hn1 i) (fun c2 => Hnb c c1 c2 Hc Hc1)) as [L1 L2]. fold nrw in L1, L2. split; [exact L1|]. rewrite L2.
    unfold sim_read. destruct (sim_place t sim c1) as [c2|] eqn:E2; cbn [option_map]; [|rewrite <- He; exact Rp0].
    specialize (Hnb c c1 c2 Hc Hc1 E2). specialize (Hf c2 Hnb). pose proof (thin_holds n t sim r HN b Eb d p Hd Rp c2 Hnb) as K. unfold slot in K. congruence. }
  assert (HpN : forall c, inr n r c -> pN (slot sim b c) = fN c).
  { intros c Hc. specialize (HfN c Hc). pose proof (thin_holds n t sim r HN b Eb dn pN Hdn RpN c Hc) as K. congruence. }
  pose proof RpN as (_ & _ & RNr).
  destruct (run_spec st upd t true b nrw Hs td p Rp true b nrw Hs tdn pN RpN n Lt z z Lz Lz ss (d_grid dn) pN) as (g' & E & Rg).
  { apply Forall_forall. exact Hss. }
  { exact RNr. }
  { apply Forall_forall. intros c Hc. apply Hin in Hc. rewrite Hz by (apply Lin, Hsub, Hc). split; [|exact (proj1 (own_place n t sim r HN b Eb c (Hsub c Hc)))].
    apply Forall_forall. intros c1 Hc1. exact (proj1 (Hnear c c1 Hc Hc1)). }
  exists g'. split; [exact E|]. pose proof (node_with sim b dn g' _ Hdn Rg) as Hn'. split; [exact Hn'|].
  set (op := fun c => (ddenotes t true b nrw (zadd c z), upd (map (fun c' => p (ddenotes t true b nrw c')) (neighbors st (zadd c z))))). fold op in Rg.
  assert (Hop : forall c, inr n r' c -> op c = (slot sim b c, upd (map (sim_read t sim f edge) (neighbors st c)))).
  { intros c Hc. unfold op. rewrite Hz by (apply Lin, Hsub, Hc). f_equal; [exact (proj2 (own_place n t sim r HN b Eb c (Hsub c Hc)))|].
    f_equal. apply map_ext_in. intros c1 Hc1. exact (proj2 (Hnear c c1 Hc Hc1)). }
  assert (RD : drep b nrw (thin t sim b (dg_with dn g')) (modify pN (map op (flat_map streak_coords ss)))) by (split; [reflexivity|split; [reflexivity|exact Rg]]).
  assert (Hplaces : NoDup (map fst (map op (flat_map streak_coords ss)))).
  { rewrite map_map. apply nodup_map_in; [exact Hnd|]. intros a c Ha Hc Eq. apply Hin in Ha. apply Hin in Hc. rewrite (Hop a Ha), (Hop c Hc) in Eq. cbn [fst] in Eq.
    apply (slot_inj n t sim r HN b Eb); auto. }
  assert (Hother : forall q, (forall c, inr n r' c -> slot sim b c <> q) -> modify pN (map op (flat_map streak_coords ss)) q = pN q).
  { intros q Hq. apply modify_other. rewrite map_map. intros Hi. apply in_map_iff in Hi. destruct Hi as (c & E' & Hc). apply Hin in Hc. rewrite (Hop c Hc) in E'. now apply (Hq c Hc). }
  split; [|split].
  - intros c Hc. rewrite (thin_holds n t sim r HN b Eb _ _ Hn' RD c (Hsub c Hc)). f_equal. rewrite <- (HpN c (Hsub c Hc)).
    apply (modify_at (map op (flat_map streak_coords ss)) pN (slot sim b c) (upd (map (sim_read t sim f edge) (neighbors st c))) Hplaces).
    rewrite <- (Hop c Hc). apply in_map. now apply Hin.
  - intros c Hc Hno. rewrite (thin_holds n t sim r HN b Eb _ _ Hn' RD c Hc). f_equal. rewrite Hother; [now apply HpN|]. intros c' Hc' Es.
    apply Hno. rewrite <- (slot_inj n t sim r HN b Eb c' c (Hsub c' Hc') Hc Es). exact Hc'.
  - destruct Rg as (_ & _ & -> & _). rewrite Hother; [congruence|]. intros c _ H. unfold slot in H. discriminate.
Qed.
Print Assumptions C126_updates.

(** A node at the corner of a torus of 5 x 10 cells, whose region consists of
    four parts. *)
Definition corner : indices :=
  insert_all (reg_empty 2) [mkStreak [0] 0 3; mkStreak [0] 8 10; mkStreak [1] 0 3; mkStreak [1] 8 10; mkStreak [4] 0 3; mkStreak [4] 8 10].

Lemma corner_spec : rvalid 1 corner /\ forall y x, inr 1 corner [y; x] <-> (y = 0 \/ y = 1 \/ y = 4) /\ (0 <= x < 3 \/ 8 <= x < 10).
Proof.
  destruct (insert_all_valid 1 [mkStreak [0] 0 3; mkStreak [0] 8 10; mkStreak [1] 0 3; mkStreak [1] 8 10; mkStreak [4] 0 3; mkStreak [4] 8 10] (reg_empty 2) (rvalid_empty 1)) as [V Hi]; [repeat constructor|].
  split; [exact V|]. intros y x. unfold inr. split.
  - intros [L H]. apply Hi in H; auto. destruct H as [H|(s & Hs & z & E & Hz)]; [exfalso; eapply (rin_empty 1); eauto|].
    cbn [In] in Hs. repeat (destruct Hs as [<-|Hs]; [cbn [s_pre s_x s_e app] in *; injection E as -> ->; lia|]). destruct Hs.
  - intros [Hy Hx]. split; [reflexivity|]. apply Hi; [reflexivity|]. right.
    destruct Hy as [->|[->| ->]]; destruct Hx as [Hx|Hx];
      [exists (mkStreak [0] 0 3)|exists (mkStreak [0] 8 10)|exists (mkStreak [1] 0 3)|exists (mkStreak [1] 8 10)|exists (mkStreak [4] 0 3)|exists (mkStreak [4] 8 10)];
      (split; [cbn [In]; tauto|]); exists x; (split; [reflexivity|cbn; lia]).
Qed.

Lemma corner_node t : length t = 2%nat -> node_region 1 t (mkBox [0; 0] [5; 10]) corner.
Proof.
  intros Lt. destruct corner_spec as [V H]. split; [exact Lt|]. split; [reflexivity|]. split; [reflexivity|]. split; [exact V|]. split.
  - exists [0; 0]. apply H. lia.
  - intros c Hc. pose proof Hc as [L _]. destruct c as [|y [|x [|z c]]]; try discriminate. apply H in Hc. unfold in_box. cbn. lia.
Qed.

Example C124_example : let sim := mkBox [0; 0] [5; 10] in
  node_region 1 [true; true] sim corner /\
  guess_offset [true; true] corner sim = Some (mkBox [4; 8] [3; 5]) /\
  guess_offset [false; true] corner sim = Some (mkBox [0; 8] [5; 5]) /\
  option_map (fun d => (dg_get [true; true] true d [0; 0], g_cells (d_grid d)))
    (dg_ops [true; true] true (dg_make (mkBox [4; 8] [3; 5]) 0 (-1) [5; 10]) [GSet [0; 0] 7; GSet [4; 9] 8; GSet [1; 2] 9; GSet [0; 0] 5]) =
  Some (Some 5, [0; 8; 0; 0; 0; 0; 0; 5; 0; 0; 0; 0; 0; 0; 9]).
Proof. cbv zeta. split; [apply (corner_node [true; true]); reflexivity|]. split; [vm_compute; reflexivity|]. split; vm_compute; reflexivity. Qed.

Example C125_example : node_region 1 [true; true] (mkBox [0; 0] [5; 10]) corner /\ covers 1 corner [true; true] [5; 10] 0 (-3) 7 /\
  forall w, covers 1 corner [true; true] [5; 10] 0 (-2) w -> 5 <= w.
Proof.
  split; [apply (corner_node [true; true]); reflexivity|]. split.
  - intros c Hc. pose proof Hc as [L _]. destruct c as [|y [|x [|z c]]]; try discriminate. apply corner_spec in Hc. cbn.
    destruct (Z.ltb_spec x 5); [exists x; split; [exists 0|]; lia|exists (x - 10); split; [exists (-1)|]; lia].
  - intros w Hw. exact (C125_minimal 1 [true; true] (mkBox [0; 0] [5; 10]) corner (mkBox [4; 8] [3; 5]) 0 (-2) w (corner_node [true; true] eq_refl) ltac:(vm_compute; reflexivity) ltac:(cbn; lia) Hw).
Qed.

(** Summing up neighbors in the inner part, which crosses the borders of the
    simulation area along both axes. *)
Example C126_example : let sim := mkBox [0; 0] [5; 10] in let t := [true; true] in let b := mkBox [4; 8] [3; 5] in
  let st := mkStencil Moore 2 1 in
  let inner := insert_all (reg_empty 2) [mkStreak [0] 0 2; mkStreak [0] 9 10] in
  let upd (vs : list Z) (v : Z) := fold_right Z.add 0 vs in
  rvalid 1 inner /\ (forall c, inr 1 inner c -> inr 1 corner c) /\ line_stencil st /\
  (forall c c1 c2, inr 1 inner c -> In c1 (neighbors st c) -> sim_place t sim c1 = Some c2 -> inr 1 corner c2) /\
  exists d g', dg_ops t true (dg_make b 0 (-1) [5; 10]) [GSet [4; 9] 100; GSet [0; 0] 20; GSet [1; 2] 3] = Some d /\
    run_bodies (lp_body st upd t (d_grid d) (dg_loc t true d) b (dg_loc t true (dg_make b 0 0 [5; 10])) [0; 0] [0; 0])
      [mkStreak [0] 0 2; mkStreak [0] 9 10] (d_grid (dg_make b 0 0 [5; 10])) = Some g' /\
    g_cells g' = [0; 0; 0; 0; 0;  0; 120; 120; 23; 0;  0; 0; 0; 0; 0].
Proof.
  intros sim t b st inner upd.
  destruct (insert_all_valid 1 [mkStreak [0] 0 2; mkStreak [0] 9 10] (reg_empty 2) (rvalid_empty 1)) as [V Hi]; [repeat constructor|].
  assert (Hin : forall c, inr 1 inner c -> exists x, c = [0; x] /\ (0 <= x < 2 \/ x = 9)).
  { intros c [L H]. apply Hi in H; auto. destruct H as [H|(s & Hs & z & -> & Hz)]; [exfalso; eapply (rin_empty 1); eauto|].
    cbn [In] in Hs. destruct Hs as [<-|[<-|[]]]; cbn in *; exists z; split; auto; lia. }
  split; [exact V|]. split; [|split; [repeat split; cbn; try lia; discriminate|split]].
  - intros c Hc. destruct (Hin c Hc) as (x & -> & Hx). apply corner_spec. lia.
  - intros c c1 c2 Hc Hc1 E. destruct (Hin c Hc) as (x & -> & Hx). unfold neighbors in Hc1. apply in_map_iff in Hc1. destruct Hc1 as (e & <- & He).
    assert (Hx' : In x [0; 1; 9]) by (cbn; lia). vm_compute in He.
    repeat (destruct He as [<-|He]; [cbn [In] in Hx'; destruct Hx' as [<-|[<-|[<-|[]]]]; vm_compute in E; injection E as <-; apply corner_spec; lia|]). destruct He.
  - eexists. eexists. split; [vm_compute; reflexivity|]. split; vm_compute; reflexivity.
Qed.
