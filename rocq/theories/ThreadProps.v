(** Theorems on threads, SerialSimulator and OpenMPSimulator: C157 to C160. *)
From Coq Require Import Permutation.
From Verif Require Import Base ListFacts RegionSpec RegionModel RegionRep RegionIterModel RegionStreaks RegionOpsModel RegionOps RegionGeometry HaloSpec
  CoordModel CoordSpec CoordFacts TopologyFacts PatchModel ConfigFacts GridModel GridSpec GridFacts DisplacedFacts GridReach SellFacts SoAProps
  StencilModel StencilSpec StencilFacts StencilProps UpdateModel UpdateSpec UpdateFacts UpdateProps PartitionManagerModel AdapterModel CudaSpec CudaFacts
  ThreadModel ThreadSpec ThreadPlanes ThreadFacts ThreadRun.

(** ** C157: whatever the schedule *)

(** Each cell of the region belongs to exactly one task, once. *)
Theorem C157_tasks : forall n bd cs th r, rvalid n r ->
  (c_fine cs = true -> 1 <= th_gran th /\ forall c, inr n r c -> 0 <= last c 0) ->
  exists ts, tasks bd cs th r = Some ts /\ NoDup (flat_map streak_coords (concat ts)) /\
    forall c, In c (flat_map streak_coords (concat ts)) <-> inr n r c.
Proof.
  intros n bd cs th r Hv Hf. destruct (streaks_valid n r Hv) as (ss & [_ Hss] & _ & Es & _).
  destruct (region_coords_nodup n r Hv) as (l & El & Hin & Hnd). unfold region_coords in El. rewrite Es in El. cbn [option_map] in El. assert (l = flat_map streak_coords ss) as -> by congruence.
  destruct (tasks_spec n bd cs th r ss Hv Es) as (ts & Et & Hc & _).
  - intros H. destruct (Hf H) as [H1 H2]. split; [exact H1|]. rewrite Forall_forall in *. intros s Hs. destruct (Hss s Hs) as [Hp Hx].
    specialize (H2 (s_pre s ++ [s_x s])). rewrite last_last in H2. apply H2, Hin. apply in_flat_map. exists s. split; [exact Hs|]. unfold streak_coords. apply in_map_iff. exists (s_x s). split; [reflexivity|]. apply zrange_in. lia.
  - exists ts. split; [exact Et|]. rewrite Hc. split; [exact Hnd|exact Hin].
Qed.
Print Assumptions C157_tasks.

Lemma tasks_covers n bd cs th r ts : rvalid n r -> (c_fine cs = true -> 1 <= th_gran th /\ forall c, inr n r c -> 0 <= last c 0) -> tasks bd cs th r = Some ts ->
  exists ss, reg_streaks r = Some ss /\ covers n ss (concat ts).
Proof.
  intros Hv Hf Et. destruct (streaks_valid n r Hv) as (ss & [_ Hss] & _ & Es & _). exists ss. split; [exact Es|].
  destruct (region_coords_nodup n r Hv) as (l & El & Hin & Hnd). unfold region_coords in El. rewrite Es in El. cbn [option_map] in El. assert (l = flat_map streak_coords ss) as -> by congruence.
  destruct (tasks_spec n bd cs th r ss Hv Es) as (ts' & Et' & Hc).
  - intros H. destruct (Hf H) as [H1 H2]. split; [exact H1|]. rewrite Forall_forall in *. intros s Hs. destruct (Hss s Hs) as [Hp Hx].
    specialize (H2 (s_pre s ++ [s_x s])). rewrite last_last in H2. apply H2, Hin. apply in_flat_map. exists s. split; [exact Hs|]. unfold streak_coords. apply in_map_iff. exists (s_x s). split; [reflexivity|]. apply zrange_in. lia.
  - congruence.
Qed.

Section Schedules.
Context {C : Type} (st : stencil) (upd : list C -> C -> C) (t : topology) (correct : bool) (b : box) (topo : coord) (d : dgrid C).
Context (cN : bool) (bN : box) (topoN : coord) (dn : dgrid C) (n : nat) (r : indices) (soff toff : coord) (bd : build) (cs : conc) (th : threading).
Context (ts : list (list streak)) (order : list act) (one : act -> vgrid C -> option (vgrid C)).
Context (Hs : setup_ok t correct b topo) (Hr : dg_reach t correct b topo d) (HsN : setup_ok t cN bN topoN) (HrN : dg_reach t cN bN topoN dn).
Context (Hn : length t = S n) (Lso : length soff = S n) (Lto : length toff = S n) (Hrv : rvalid n r).
Context (Hfine : c_fine cs = true -> 1 <= th_gran th /\ forall c, inr n r c -> 0 <= last c 0).
Context (Et : tasks bd cs th r = Some ts) (Hord : interleaves (work ts) order).
Context (Hok : forall c, inr n r c -> in_box bN (zadd c toff) /\ Forall (reachable_coord t correct b topo) (neighbors st (zadd c soff))).
Context (Hone : one = van_act st upd (d_grid d) (dg_loc t correct d) (dg_loc t cN dn) soff toff \/
  (one = lp_act st upd t (d_grid d) (dg_loc t correct d) b (dg_loc t cN dn) soff toff /\
   line_stencil st /\ st_dim st = length t /\ soff = zeros (b_dim b) /\ forall c, inr n r c -> in_box b c)).

Lemma one_van a g : In a order -> one a g = van_act st upd (d_grid d) (dg_loc t correct d) (dg_loc t cN dn) soff toff a g.
Proof using All.
  intros Ha. destruct (tasks_covers n bd cs th r ts Hrv Hfine Et) as (ss & Es & Hcov). destruct (order_facts n r ss ts order Hrv Es Hcov Hord) as (O1 & _ & _ & O4).
  destruct Hone as [->|(-> & Hst & Hdim & -> & Hbox)]; [reflexivity|].
  destruct (dg_reach_rep t correct b topo d Hs Hr) as (f & A1 & A2 & A3 & _). destruct (dg_reach_rep t cN bN topoN dn HsN HrN) as (fN & B1 & B2 & B3 & _).
  assert (Hc : forall c, In c (streak_coords (fst a)) -> inr n r c).
  { intros c Hc. destruct (region_coords_nodup n r Hrv) as (l & El & Hl & _). unfold region_coords in El. rewrite Es in El. cbn [option_map] in El. assert (l = flat_map streak_coords ss) as -> by congruence.
    apply Hl. rewrite <- (proj1 Hcov). apply in_flat_map. exists (fst a). split; [now apply O4|exact Hc]. }
  apply (lp_act_van C st upd t correct b topo d cN bN topoN dn a toff Hst Hdim Hs A1 A2 A3 HsN B1 B2 B3).
  - rewrite Forall_forall in O1. specialize (O1 a Ha). rewrite Hn. cbn [Nat.sub]. rewrite Nat.sub_0_r. exact O1.
  - congruence.
  - apply Forall_forall. intros c H. now apply Hbox, Hc.
  - apply Forall_forall. intros c H. now apply Hok, Hc.
Qed.

Lemma schedule_updates : exists g', run_acts one order (d_grid dn) = Some g' /\
    (forall c, inr n r c -> exists vs v,
      Forall2 (fun c' v' => dg_get t correct d c' = Some v') (neighbors st (zadd c soff)) vs /\
      dg_get t cN dn (zadd c toff) = Some v /\ dg_get t cN (dg_with dn g') (zadd c toff) = Some (upd vs v)) /\
    (forall c, reachable_coord t cN bN topoN c -> (forall c', inr n r c' -> ddenotes t cN bN topoN c <> ddenotes t cN bN topoN (zadd c' toff)) ->
      dg_get t cN (dg_with dn g') c = dg_get t cN dn c).
Proof using All.
  destruct (tasks_covers n bd cs th r ts Hrv Hfine Et) as (ss & Es & Hcov). destruct (order_facts n r ss ts order Hrv Es Hcov Hord) as (O1 & O2 & O3 & _).
  rewrite (run_acts_ext _ _ order (fun a g => one_van a g)). rewrite (run_acts_bodies st upd _ _ _ soff toff n order O1 Lso Lto).
  apply (updates_ordered C st upd t correct b topo d cN bN topoN dn n (inr n r) soff toff); auto.
  - now intros c [H _].
  - now apply cell_streaks_ok.
  - now rewrite cells_coords.
  - intros c. now rewrite cells_coords.
Qed.

Lemma loc_cell c : in_box bN c -> dg_loc t cN dn c = PCell (to_index (zsub c (b_origin bN)) (b_dim bN)).
Proof using HsN HrN.
  intros Hc. destruct (dg_reach_rep t cN bN topoN dn HsN HrN) as (fN & RN). destruct (box_place t cN bN topoN c HsN Hc) as [H1 H2].
  destruct (drep_coord t cN bN topoN HsN dn fN c RN H1) as [K1 K2]. rewrite H2 in K2. destruct RN as (_ & _ & B3 & _). unfold dg_loc, grid_loc. rewrite B3.
  destruct HsN as (_ & Ho & Hd & Hp & _). destruct (out_of_bounds t (dg_coord t cN dn c) (b_dim bN)) eqn:Eo.
  - rewrite (denotes_oob _ _ _ (eq_sym Hd) Hp Eo) in K2. discriminate.
  - destruct (denotes_in t (b_dim bN) _ (eq_sym Hd) Hp K1 Eo) as [E _]. rewrite E in K2. congruence.
Qed.

Lemma schedule_races : NoDup (map (fun a => dg_loc t cN dn (zadd (act_coord a) toff)) order) /\
  forall a, In a order -> exists h, forall g,
    one a g = obind (deref g (dg_loc t cN dn (zadd (act_coord a) toff)) 0) (fun v => store g (dg_loc t cN dn (zadd (act_coord a) toff)) 0 (h v)).
Proof using All.
  destruct (tasks_covers n bd cs th r ts Hrv Hfine Et) as (ss & Es & Hcov). destruct (order_facts n r ss ts order Hrv Es Hcov Hord) as (O1 & O2 & O3 & _).
  assert (Hin : forall a, In a order -> inr n r (act_coord a)) by (intros a Ha; apply O3, in_map, Ha). split.
  - rewrite <- (map_map act_coord (fun c => dg_loc t cN dn (zadd c toff))). apply nodup_map_in; [exact O2|]. intros x y Hx Hy E. apply O3 in Hx. apply O3 in Hy.
    destruct (Hok x Hx) as [Bx _]. destruct (Hok y Hy) as [By _]. rewrite !loc_cell in E by assumption. pose proof HsN as (_ & Ho & Hd & Hp & _).
    unfold in_box in Bx, By. pose proof (proj1 (in_box_zsub (b_origin bN) (b_dim bN) _ ltac:(lia)) Bx) as [Lx Gx]. pose proof (proj1 (in_box_zsub (b_origin bN) (b_dim bN) _ ltac:(lia)) By) as [Ly Gy].
    assert (E' : zsub (zadd x toff) (b_origin bN) = zsub (zadd y toff) (b_origin bN)) by (apply (to_index_inj (b_dim bN)); auto; congruence).
    destruct Hx as [Hlx _]. destruct Hy as [Hly _]. apply sub_inj in E'; [|rewrite zadd_length' by lia; lia|rewrite !zadd_length' by lia; lia]. apply zadd_inj in E'; auto; lia.
  - intros a Ha. pose proof (Hin a Ha) as Hc. destruct (Hok _ Hc) as [B1 B2]. rewrite Forall_forall in O1. destruct (O1 a Ha) as [Hp _].
    destruct (dg_reach_rep t correct b topo d Hs Hr) as (f & R). destruct (dg_reach_rep t cN bN topoN dn HsN HrN) as (fN & RN).
    pose proof (hood_get st upd t correct b topo Hs d f R cN bN topoN HsN dn fN RN n Hn soff toff Lso Lto _ B2) as Eh.
    exists (fun v => upd (map (fun c' => f (ddenotes t correct b topo c')) (neighbors st (zadd (act_coord a) soff))) v). intros g. rewrite (one_van a g Ha).
    unfold van_act. destruct (move_parts n (fst a) soff Hp Lso) as [-> _]. destruct (move_parts n (fst a) toff Hp Lto) as [_ ->]. cbn [s_pre s_x]. rewrite removelast_last, last_last.
    destruct (snoc_parts soff n 0 Lso) as [Eso Ls]. destruct (snoc_parts toff n 0 Lto) as [Eto Lt].
    assert (Zs : zadd (act_coord a) soff = zadd (s_pre (fst a)) (removelast soff) ++ [s_x (fst a) + last soff 0 + snd a]).
    { unfold act_coord. rewrite Eso at 1. rewrite zadd_snoc by lia. do 2 f_equal. lia. }
    assert (Zt : zadd (act_coord a) toff = zadd (s_pre (fst a)) (removelast toff) ++ [s_x (fst a) + last toff 0 + snd a]).
    { unfold act_coord. rewrite Eto at 1. rewrite zadd_snoc by lia. do 2 f_equal. lia. }
    cbn [van_loop]. rewrite <- Zs, <- Zt. rewrite Eh. cbn [obind]. destruct (deref g _ 0) as [v|]; [|reflexivity]. cbn [obind]. now destruct (store g _ 0 _).
Qed.
End Schedules.

(** Whichever thread executes which task when, and no matter how they take
    turns: the cell at [c + toff] receives the update of the neighborhood of
    [c + soff], for each [c] of the region, and no other cell changes. *)
Theorem C157_any_schedule : forall C st upd t correct b topo (d : dgrid C) cN bN topoN (dn : dgrid C) n r soff toff bd cs th ts order one,
  setup_ok t correct b topo -> dg_reach t correct b topo d -> setup_ok t cN bN topoN -> dg_reach t cN bN topoN dn ->
  length t = S n -> length soff = S n -> length toff = S n -> rvalid n r ->
  (c_fine cs = true -> 1 <= th_gran th /\ forall c, inr n r c -> 0 <= last c 0) ->
  tasks bd cs th r = Some ts -> interleaves (work ts) order ->
  (forall c, inr n r c -> in_box bN (zadd c toff) /\ Forall (reachable_coord t correct b topo) (neighbors st (zadd c soff))) ->
  one = van_act st upd (d_grid d) (dg_loc t correct d) (dg_loc t cN dn) soff toff \/
  (one = lp_act st upd t (d_grid d) (dg_loc t correct d) b (dg_loc t cN dn) soff toff /\
   line_stencil st /\ st_dim st = length t /\ soff = zeros (b_dim b) /\ forall c, inr n r c -> in_box b c) ->
  exists g', run_acts one order (d_grid dn) = Some g' /\
    (forall c, inr n r c -> exists vs v,
      Forall2 (fun c' v' => dg_get t correct d c' = Some v') (neighbors st (zadd c soff)) vs /\
      dg_get t cN dn (zadd c toff) = Some v /\ dg_get t cN (dg_with dn g') (zadd c toff) = Some (upd vs v)) /\
    (forall c, reachable_coord t cN bN topoN c -> (forall c', inr n r c' -> ddenotes t cN bN topoN c <> ddenotes t cN bN topoN (zadd c' toff)) ->
      dg_get t cN (dg_with dn g') c = dg_get t cN dn c).
Proof. intros. eapply schedule_updates with (n := n); eassumption. Qed.
Print Assumptions C157_any_schedule.

(** No two updates access the same cell of the new grid: each of them reads and
    writes nothing but the cell at one address, and all of these addresses
    differ. *)
Theorem C157_race_free : forall C st upd t correct b topo (d : dgrid C) cN bN topoN (dn : dgrid C) n r soff toff bd cs th ts order one,
  setup_ok t correct b topo -> dg_reach t correct b topo d -> setup_ok t cN bN topoN -> dg_reach t cN bN topoN dn ->
  length t = S n -> length soff = S n -> length toff = S n -> rvalid n r ->
  (c_fine cs = true -> 1 <= th_gran th /\ forall c, inr n r c -> 0 <= last c 0) ->
  tasks bd cs th r = Some ts -> interleaves (work ts) order ->
  (forall c, inr n r c -> in_box bN (zadd c toff) /\ Forall (reachable_coord t correct b topo) (neighbors st (zadd c soff))) ->
  one = van_act st upd (d_grid d) (dg_loc t correct d) (dg_loc t cN dn) soff toff \/
  (one = lp_act st upd t (d_grid d) (dg_loc t correct d) b (dg_loc t cN dn) soff toff /\
   line_stencil st /\ st_dim st = length t /\ soff = zeros (b_dim b) /\ forall c, inr n r c -> in_box b c) ->
  exists target : act -> ptr, NoDup (map target order) /\
    forall a, In a order -> exists h, forall g, one a g = obind (deref g (target a) 0) (fun v => store g (target a) 0 (h v)).
Proof. intros. exists (fun a => dg_loc t cN dn (zadd (act_coord a) toff)). eapply schedule_races with (n := n) (st := st) (correct := correct) (b := b) (topo := topo) (d := d) (soff := soff); eassumption. Qed.
Print Assumptions C157_race_free.

(** ** C158: runs without Steerers *)

Section Closed.
Context {C S : Type} (st : stencil) (t : topology) (dim : coord) (upd : nat -> list C -> C -> C) (nanos start stop : nat).
Context (init : prog C S) (writers : list nat) (ic : coord -> C) (edge : C).
Context (Hlt : length t = length dim) (Hp : allpos dim).
Notation gens k := (generations t dim st upd nanos edge ic k).
Notation gen k := (generation t dim st upd nanos edge ic k).

Lemma agree_place (f g : place -> C) c : agree dim f g -> f (denotes t dim c) = g (denotes t dim c).
Proof using Hlt Hp. intros [A1 A2]. destruct (denotes t dim c) as [r|] eqn:E; [|exact A1]. apply A2. now apply (denotes_inside t dim c r). Qed.

Lemma advance_gens k cur prev : agree dim cur (value (fst (gens k)) edge) -> agree dim prev (value (snd (gens k)) edge) ->
  agree dim (advance t dim st (upd (Nat.modulo k nanos)) cur prev) (value (fst (gens (Datatypes.S k))) edge) /\ snd (gens (Datatypes.S k)) = fst (gens k).
Proof using Hlt Hp.
  intros Hc [P1 P2]. cbn [generations]. destruct (gens k) as [c0 p0]. cbn [fst snd] in *. split; [|reflexivity]. split; [exact P1|]. intros c Hin. cbn [advance value]. unfold sync.
  rewrite (P2 c Hin). cbn [value]. f_equal. apply map_ext. intros c'. now apply agree_place.
Qed.

Lemma advances_gens q : forall n i cur prev, (i + n = nanos)%nat ->
  agree dim cur (value (fst (gens (nanos * q + i))) edge) -> agree dim prev (value (snd (gens (nanos * q + i))) edge) ->
  agree dim (fst (advances st t dim upd i n cur prev)) (value (fst (gens (nanos * q + nanos))) edge) /\
  agree dim (snd (advances st t dim upd i n cur prev)) (value (snd (gens (nanos * q + nanos))) edge).
Proof using Hlt Hp.
  induction n as [|n IH]; intros i cur prev Hi Hc Hpr; cbn [advances].
  - assert (i = nanos) as -> by lia. now split.
  - destruct (advance_gens (nanos * q + i) cur prev Hc Hpr) as [H1 H2].
    assert (Em : Nat.modulo (nanos * q + i) nanos = i) by (rewrite Nat.mul_comm, Nat.add_comm, Nat.mod_add by lia; apply Nat.mod_small; lia).
    rewrite Em in H1. apply IH; [lia| |].
    + replace (nanos * q + Datatypes.S i)%nat with (Datatypes.S (nanos * q + i)) by lia. exact H1.
    + replace (nanos * q + Datatypes.S i)%nat with (Datatypes.S (nanos * q + i)) by lia. rewrite H2. exact Hc.
Qed.

Notation sees := (fun c => agree dim (wc_grid c) (value (gen (nanos * (wc_step c - start))) edge)).
Notation ident := (fun c => (wc_writer c, wc_step c, wc_event c)).

Lemma closed_loop k : forall q (w : world C S), (q + k = stop - start)%nat -> w_step w = (start + q)%nat ->
  agree dim (w_cur w) (value (fst (gens (nanos * q))) edge) -> agree dim (w_prev w) (value (snd (gens (nanos * q))) edge) -> Forall sees (w_log w) ->
  exists w', ref_loop st t dim upd nanos stop [] writers k w false = (w', false) /\ w_step w' = (start + q + k)%nat /\
    agree dim (w_cur w') (value (gen (nanos * (q + k))) edge) /\ Forall sees (w_log w') /\
    map ident (w_log w') = map ident (w_log w) ++
      flat_map (fun s => map (fun w => (fst w, s, if Nat.eqb s stop then IoAllDone else IoStep))
                       (filter (fun w => Nat.eqb (Nat.modulo s (snd w)) 0 || Nat.eqb s stop) (combine (seq 0 (length writers)) writers))) (seq (Datatypes.S (start + q)) k).
Proof using Hlt Hp.
  induction k as [|k IH]; intros q w Hq Hw Hc Hpr Hlog; cbn [ref_loop].
  - exists w. split; [reflexivity|]. split; [lia|]. rewrite Nat.add_0_r. split; [exact Hc|]. split; [exact Hlog|]. cbn. now rewrite app_nil_r.
  - unfold ref_step. cbn [input steer]. cbn [w_cur w_prev w_step w_mem w_log]. replace (nanos * q)%nat with (nanos * q + 0)%nat in Hc, Hpr by lia.
    destruct (advances_gens q nanos 0 _ _ eq_refl Hc Hpr) as [A1 A2]. destruct (advances st t dim upd 0 nanos (w_cur w) (w_prev w)) as [cur prev]. cbn [fst snd] in A1, A2.
    replace (nanos * q + nanos)%nat with (nanos * Datatypes.S q)%nat in A1, A2 by lia.
    match goal with |- context [ref_loop _ _ _ _ _ _ _ _ _ ?w' _] => destruct (IH (Datatypes.S q) w') as (w2 & E & F1 & F2 & F3 & F4) end; cbn [output w_cur w_prev w_step w_mem w_log]; [lia|lia|exact A1|exact A2| |].
    + apply Forall_app. split; [exact Hlog|]. apply Forall_map. apply Forall_forall. intros x _. cbn [wc_grid wc_step]. rewrite Hw. replace (Datatypes.S (start + q) - start)%nat with (Datatypes.S q) by lia. exact A1.
    + exists w2. split; [exact E|]. split; [lia|]. split; [now replace (q + Datatypes.S k)%nat with (Datatypes.S q + k)%nat by lia|]. split; [exact F3|]. rewrite F4. cbn [output w_log w_step].
      rewrite map_app, <- app_assoc. f_equal. rewrite map_map. cbn [wc_writer wc_step wc_event seq flat_map]. rewrite Hw. replace (start + Datatypes.S q)%nat with (Datatypes.S (start + q)) by lia. f_equal.
      f_equal. apply filter_ext. intros x. destruct (Nat.eqb (Datatypes.S (start + q)) stop); cbn [is_due]; [now rewrite orb_true_r|now rewrite orb_false_r].
Qed.

Lemma closed_run dflt mem : (start <= stop)%nat -> sets_up t dim dflt init ic edge ->
  let w := ref_run st t dim upd nanos start stop init [] writers (ref_start t dim start init dflt mem) in
  w_step w = stop /\ agree dim (w_cur w) (value (gen (nanos * (stop - start))) edge) /\ Forall sees (w_log w) /\ map ident (w_log w) = expected_calls start stop writers.
Proof using Hlt Hp.
  intros Hss [S1 S2]. unfold ref_run. cbn [input steer ref_start]. cbn [w_cur w_prev w_step w_mem w_log].
  match goal with |- context [ref_loop _ _ _ _ _ _ _ _ _ ?w' _] => destruct (closed_loop (stop - start) 0 w') as (w2 & E & F1 & F2 & F3 & F4) end; cbn [output w_cur w_prev w_step w_mem w_log].
  - reflexivity.
  - lia.
  - rewrite Nat.mul_0_r. exact S2.
  - rewrite Nat.mul_0_r. exact S1.
  - cbn [app]. apply Forall_map. apply Forall_forall. intros x _. cbn [wc_grid wc_step]. rewrite Nat.sub_diag, Nat.mul_0_r. exact S2.
  - rewrite E. cbn [input steer fst w_cur w_step w_log]. split; [lia|]. split; [exact F2|]. split; [exact F3|]. rewrite F4. unfold output, ref_start. cbn [w_log w_step w_cur app]. unfold expected_calls.
    rewrite Nat.add_0_r. f_equal. rewrite map_map. cbn [wc_writer wc_step wc_event]. cbn [is_due]. clear. generalize 0%nat.
    induction writers as [|p l IH]; intros k; [reflexivity|]. cbn [length seq combine filter map]. f_equal. apply IH.
Qed.
End Closed.

(** SerialSimulator and OpenMPSimulator compute the generations of the cellular
    automaton, on whatever number of threads, and Writers see each of those
    which are due. *)
Theorem C158_run : forall C S st t dim upd (dflt : C) nanos fixed bd cs th order start stop (init : prog C S) writers ic edge mem fuel,
  sim_ok st t dim fixed th init [] writers -> schedule dim bd cs th order -> (start <= stop)%nat -> (stop - start <= fuel)%nat -> sets_up t dim dflt init ic edge ->
  let gen k := generation t dim st upd nanos edge ic (nanos * (k - start)) in
  exists s0 s, construct t dim dflt start init mem = Some s0 /\ run st t dim upd nanos fixed bd cs th order start stop init [] writers fuel s0 = Some s /\
    m_step s = stop /\ shows t dim (m_cur s) (gen stop) edge /\
    map (fun c => (wc_writer c, wc_step c, wc_event c)) (m_log s) = expected_calls start stop writers /\
    Forall (fun c => shows t dim (wc_grid c) (gen (wc_step c)) edge) (m_log s).
Proof.
  intros C S st t dim upd dflt nanos fixed bd cs th order start stop init writers ic edge mem fuel Hok Hsch Hss Hf Hset gen. pose proof Hok as (_ & Hlt & Hp & _).
  destruct (r_construct st t dim dflt fixed th start init [] writers Hok mem) as (s0 & E0 & G0).
  destruct (r_run st t dim upd nanos fixed bd cs th order start stop init [] writers Hok Hsch fuel s0 _ Hf G0) as (s & E & G).
  pose proof (closed_run st t dim upd nanos start stop init writers ic edge Hlt Hp dflt mem Hss Hset) as Hw. cbn zeta in Hw.
  destruct (good_mirrors st t dim fixed th init [] writers Hok s _ G) as (M1 & M2 & _ & M4).
  set (w := ref_run st t dim upd nanos start stop init [] writers _) in *. destruct Hw as (W1 & W2 & W3 & W4).
  assert (Hshow : forall g f h, displays t dim g f -> agree dim f (value h edge) -> shows t dim g h edge).
  { intros g f h [D1 D2] [A1 A2]. split; [rewrite D1, A1; reflexivity|]. intros c Hc. rewrite (D2 c (in_grid_close _ _ Hp Hc)). rewrite (denotes_self t dim c Hlt Hp Hc). now rewrite (A2 c Hc). }
  exists s0, s. split; [exact E0|]. split; [exact E|]. split; [congruence|]. split; [now apply (Hshow _ (w_cur w))|]. rewrite <- W4. clear - M4 W3 Hshow. induction M4 as [|a c la lc (Q1 & Q2 & Q3 & Q4) _ IH]; [split; [reflexivity|constructor]|].
  inversion W3 as [|? ? V1 V2]; subst. destruct (IH V2) as [I1 I2]. cbn [map]. split; [now rewrite I1, Q1, Q2, Q3|]. constructor; [|exact I2]. rewrite Q2. now apply (Hshow _ (wc_grid c)).
Qed.
Print Assumptions C158_run.

(** ** C159: Steerers, and any sequence of calls *)

Lemma use_refines {X W} (stp rn : X -> option X) (stp' rn' : W -> W) (R : X -> W -> Prop) :
  (forall s w, R s w -> exists s', stp s = Some s' /\ R s' (stp' w)) -> (forall s w, R s w -> exists s', rn s = Some s' /\ R s' (rn' w)) ->
  forall l s w, R s w -> exists s', use stp rn l s = Some s' /\ R s' (ref_use stp' rn' l w).
Proof.
  intros H1 H2. induction l as [|u l IH]; intros s w HR; [exists s; now split|]. cbn [use ref_use fold_left]. destruct u.
  - destruct (H1 s w HR) as (s' & E & R'). rewrite E. now apply IH.
  - destruct (H2 s w HR) as (s' & E & R'). rewrite E. now apply IH.
Qed.

Theorem C159_refines : forall C S st t dim upd (dflt : C) nanos fixed bd cs th order start stop (init : prog C S) steerers writers mem fuel l,
  sim_ok st t dim fixed th init steerers writers -> schedule dim bd cs th order -> (stop - start <= fuel)%nat ->
  exists s0 s, construct t dim dflt start init mem = Some s0 /\
    use (step st t dim upd nanos fixed bd cs th order stop steerers writers) (run st t dim upd nanos fixed bd cs th order start stop init steerers writers fuel) l s0 = Some s /\
    mirrors t dim s (ref_use (fun w => fst (ref_step st t dim upd nanos stop steerers writers w false)) (ref_run st t dim upd nanos start stop init steerers writers) l
      (ref_start t dim start init dflt mem)).
Proof.
  intros C S st t dim upd dflt nanos fixed bd cs th order start stop init steerers writers mem fuel l Hok Hsch Hf.
  destruct (r_construct st t dim dflt fixed th start init steerers writers Hok mem) as (s0 & E0 & G0).
  destruct (use_refines (step st t dim upd nanos fixed bd cs th order stop steerers writers) (run st t dim upd nanos fixed bd cs th order start stop init steerers writers fuel)
    (fun w => fst (ref_step st t dim upd nanos stop steerers writers w false)) (ref_run st t dim upd nanos start stop init steerers writers) (good t dim)) with (l := l) (s := s0) (w := ref_start t dim start init dflt mem) as (s & E & G).
  - intros s w G. destruct (r_step st t dim upd nanos fixed bd cs th order stop init steerers writers Hok Hsch s w false G) as (s' & E & G'). unfold step. rewrite E. exists s'. now split.
  - intros s w G. now apply (r_run st t dim upd nanos fixed bd cs th order start stop init steerers writers Hok Hsch).
  - exact G0.
  - exists s0, s. split; [exact E0|]. split; [exact E|]. now apply (good_mirrors st t dim fixed th init steerers writers Hok).
Qed.
Print Assumptions C159_refines.

(** Hence users can't tell the number of threads: the same grid, the same
    Steerers' memory, and the same calls of Writers, on the same grids. *)
Theorem C159_threads : forall C S st t dim upd (dflt : C) nanos fixed bd cs th order bd' cs' th' order' start stop (init : prog C S) steerers writers mem fuel l,
  sim_ok st t dim fixed th init steerers writers -> 1 <= th_gran th' -> schedule dim bd cs th order -> schedule dim bd' cs' th' order' -> (stop - start <= fuel)%nat ->
  let look (s : sim C S) := (m_step s, m_mem s, g_edge (d_grid (m_cur s)), map (fun w => (wc_writer w, wc_step w, wc_event w, g_edge (d_grid (wc_grid w)))) (m_log s)) in
  exists s0 s s', construct t dim dflt start init mem = Some s0 /\
    use (step st t dim upd nanos fixed bd cs th order stop steerers writers) (run st t dim upd nanos fixed bd cs th order start stop init steerers writers fuel) l s0 = Some s /\
    use (step st t dim upd nanos fixed bd' cs' th' order' stop steerers writers) (run st t dim upd nanos fixed bd' cs' th' order' start stop init steerers writers fuel) l s0 = Some s' /\
    look s = look s' /\
    forall c, close_by dim c -> dg_get t false (m_cur s) c = dg_get t false (m_cur s') c /\
      map (fun w => dg_get t false (wc_grid w) c) (m_log s) = map (fun w => dg_get t false (wc_grid w) c) (m_log s').
Proof.
  intros C S st t dim upd dflt nanos fixed bd cs th order bd' cs' th' order' start stop init steerers writers mem fuel l Hok Hg H1 H2 Hf look.
  assert (Hok' : sim_ok st t dim fixed th' init steerers writers) by (destruct Hok as (K1 & K2 & K3 & K4 & K5 & _ & K7); repeat (split; [assumption|]); exact K7).
  destruct (C159_refines C S st t dim upd dflt nanos fixed bd cs th order start stop init steerers writers mem fuel l Hok H1 Hf) as (s0 & s & E0 & E & M).
  destruct (C159_refines C S st t dim upd dflt nanos fixed bd' cs' th' order' start stop init steerers writers mem fuel l Hok' H2 Hf) as (s0' & s' & E0' & E' & M').
  assert (s0' = s0) as -> by congruence. exists s0, s, s'. split; [exact E0|]. split; [exact E|]. split; [exact E'|]. revert M M'. generalize (ref_use (fun w => fst (ref_step st t dim upd nanos stop steerers writers w false)) (ref_run st t dim upd nanos start stop init steerers writers) l
      (ref_start t dim start init dflt mem)). clear. intros w ([M1 M1'] & M2 & M3 & M4) ([N1 N1'] & N2 & N3 & N4). unfold look.
  assert (Hlog : map (fun w => (wc_writer w, wc_step w, wc_event w, g_edge (d_grid (wc_grid w)))) (m_log s) = map (fun w => (wc_writer w, wc_step w, wc_event w, g_edge (d_grid (wc_grid w)))) (m_log s') /\
    forall c, close_by dim c -> map (fun w => dg_get t false (wc_grid w) c) (m_log s) = map (fun w => dg_get t false (wc_grid w) c) (m_log s')).
  { revert N4. generalize (m_log s'). induction M4 as [|a x la lx (Q1 & Q2 & Q3 & Q4 & Q5) _ IH]; intros l' N4; inversion N4 as [|b y lb ly (P1 & P2 & P3 & P4 & P5) N5]; subst; [split; reflexivity|].
    destruct (IH lb N5) as [I1 I2]. cbn [map]. split; [congruence|]. intros c Hc. rewrite (I2 c Hc), (Q5 c Hc), (P5 c Hc). reflexivity. }
  split; [rewrite M2, N2, M3, N3, M1, N1; now rewrite (proj1 Hlog)|]. intros c Hc. split; [now rewrite M1', N1'|]. now apply Hlog.
Qed.
Print Assumptions C159_threads.

(** ** C161: running a simulator again *)

Section Rerun.
Context {C S : Type} (st : stencil) (t : topology) (dim : coord) (upd : nat -> list C -> C -> C) (nanos start stop : nat).
Context (init : prog C S) (writers : list nat) (ic : coord -> C) (edge dflt : C).
Context (Hlt : length t = length dim) (Hp : allpos dim) (Hover : overwrites upd) (Hss : (start <= stop)%nat) (Hset : always_sets_up t dim dflt init ic edge).
Notation gens k := (generations t dim st upd nanos edge ic k).
Notation gen k := (generation t dim st upd nanos edge ic k).
Notation sees := (fun c => agree dim (wc_grid c) (value (gen (nanos * (wc_step c - start))) edge)).
Notation ident := (fun c => (wc_writer c, wc_step c, wc_event c)).

Lemma readvance_gens k cur prev : agree dim cur (value (fst (gens k)) edge) -> prev None = edge ->
  agree dim (advance t dim st (upd (Nat.modulo k nanos)) cur prev) (value (fst (gens (Datatypes.S k))) edge).
Proof using Hlt Hp Hover.
  intros Hc Hpr. cbn [generations]. destruct (gens k) as [c0 p0]. cbn [fst snd] in *. split; [exact Hpr|]. intros c Hin. cbn [advance value]. unfold sync.
  erewrite (Hover _ _ (prev (Some c))). f_equal. apply map_ext. intros c'. now apply (agree_place t dim Hlt Hp).
Qed.

Lemma readvances_gens q : forall n i cur prev, (i + n = nanos)%nat -> agree dim cur (value (fst (gens (nanos * q + i))) edge) -> prev None = edge ->
  agree dim (fst (advances st t dim upd i n cur prev)) (value (fst (gens (nanos * q + nanos))) edge) /\ snd (advances st t dim upd i n cur prev) None = edge.
Proof using Hlt Hp Hover.
  clear Hss Hset.
  induction n as [|n IH]; intros i cur prev Hi Hc Hpr; cbn [advances].
  - assert (i = nanos) as -> by lia. now split.
  - pose proof (readvance_gens (nanos * q + i) cur prev Hc Hpr) as H1.
    assert (Em : Nat.modulo (nanos * q + i) nanos = i) by (rewrite Nat.mul_comm, Nat.add_comm, Nat.mod_add by lia; apply Nat.mod_small; lia).
    rewrite Em in H1. apply IH; [lia| |exact (proj1 Hc)]. replace (nanos * q + Datatypes.S i)%nat with (Datatypes.S (nanos * q + i)) by lia. exact H1.
Qed.

Lemma rerun_loop k : forall q (w : world C S), (q + k = stop - start)%nat -> w_step w = (start + q)%nat ->
  agree dim (w_cur w) (value (fst (gens (nanos * q))) edge) -> w_prev w None = edge -> Forall sees (w_log w) ->
  exists w', ref_loop st t dim upd nanos stop [] writers k w false = (w', false) /\ w_step w' = (start + q + k)%nat /\
    agree dim (w_cur w') (value (gen (nanos * (q + k))) edge) /\ w_prev w' None = edge /\ Forall sees (w_log w') /\
    map ident (w_log w') = map ident (w_log w) ++
      flat_map (fun s => map (fun w => (fst w, s, if Nat.eqb s stop then IoAllDone else IoStep))
                       (filter (fun w => Nat.eqb (Nat.modulo s (snd w)) 0 || Nat.eqb s stop) (combine (seq 0 (length writers)) writers))) (seq (Datatypes.S (start + q)) k).
Proof using Hlt Hp Hover.
  clear Hss Hset. induction k as [|k IH]; intros q w Hq Hw Hc Hpr Hlog; cbn [ref_loop].
  - exists w. split; [reflexivity|]. split; [lia|]. rewrite Nat.add_0_r. split; [exact Hc|]. split; [exact Hpr|]. split; [exact Hlog|]. cbn. now rewrite app_nil_r.
  - unfold ref_step. cbn [input steer]. cbn [w_cur w_prev w_step w_mem w_log]. replace (nanos * q)%nat with (nanos * q + 0)%nat in Hc by lia.
    destruct (readvances_gens q nanos 0 _ _ eq_refl Hc Hpr) as [A1 A2]. destruct (advances st t dim upd 0 nanos (w_cur w) (w_prev w)) as [cur prev]. cbn [fst snd] in A1, A2.
    replace (nanos * q + nanos)%nat with (nanos * Datatypes.S q)%nat in A1 by lia.
    match goal with |- context [ref_loop _ _ _ _ _ _ _ _ _ ?w' _] => destruct (IH (Datatypes.S q) w') as (w2 & E & F1 & F2 & F2' & F3 & F4) end; cbn [output w_cur w_prev w_step w_mem w_log]; [lia|lia|exact A1|exact A2| |].
    + apply Forall_app. split; [exact Hlog|]. apply Forall_map. apply Forall_forall. intros x _. cbn [wc_grid wc_step]. rewrite Hw. replace (Datatypes.S (start + q) - start)%nat with (Datatypes.S q) by lia. exact A1.
    + exists w2. split; [exact E|]. split; [lia|]. split; [now replace (q + Datatypes.S k)%nat with (Datatypes.S q + k)%nat by lia|]. split; [exact F2'|]. split; [exact F3|]. rewrite F4. cbn [output w_log w_step].
      rewrite map_app, <- app_assoc. f_equal. rewrite map_map. cbn [wc_writer wc_step wc_event seq flat_map]. rewrite Hw. replace (start + Datatypes.S q)%nat with (Datatypes.S (start + q)) by lia. f_equal.
      f_equal. apply filter_ext. intros x. destruct (Nat.eqb (Datatypes.S (start + q)) stop); cbn [is_due]; [now rewrite orb_true_r|now rewrite orb_false_r].
Qed.

Lemma rerun_once (w : world C S) : w_cur w None = edge -> w_prev w None = edge -> Forall sees (w_log w) ->
  let w' := ref_run st t dim upd nanos start stop init [] writers w in
  w_step w' = stop /\ agree dim (w_cur w') (value (gen (nanos * (stop - start))) edge) /\ w_prev w' None = edge /\ Forall sees (w_log w') /\
  map ident (w_log w') = map ident (w_log w) ++ expected_calls start stop writers.
Proof using Hlt Hp Hover Hss Hset.
  intros Hc Hpr Hlog. pose proof (Hset (w_cur w) (or_intror Hc)) as S2. unfold ref_run. cbn [input steer]. cbn [w_cur w_prev w_step w_mem w_log].
  match goal with |- context [ref_loop _ _ _ _ _ _ _ _ _ ?w' _] => destruct (rerun_loop (stop - start) 0 w') as (w2 & E & F1 & F2 & F2' & F3 & F4) end; cbn [output w_cur w_prev w_step w_mem w_log].
  - reflexivity.
  - lia.
  - rewrite Nat.mul_0_r. exact S2.
  - exact Hpr.
  - apply Forall_app. split; [exact Hlog|]. apply Forall_map. apply Forall_forall. intros x _. cbn [wc_grid wc_step]. rewrite Nat.sub_diag, Nat.mul_0_r. exact S2.
  - rewrite E. cbn [input steer fst w_cur w_prev w_step w_log]. split; [lia|]. split; [exact F2|]. split; [exact F2'|]. split; [exact F3|]. rewrite F4. unfold output. cbn [w_log w_step w_cur]. unfold expected_calls.
    rewrite Nat.add_0_r, map_app, <- app_assoc. f_equal. f_equal. rewrite map_map. cbn [wc_writer wc_step wc_event]. cbn [is_due]. clear. generalize 0%nat.
    induction writers as [|p l IH]; intros k; [reflexivity|]. cbn [length seq combine filter map]. f_equal. apply IH.
Qed.

Lemma rerun_all n : forall (w : world C S), w_cur w None = edge -> w_prev w None = edge -> Forall sees (w_log w) ->
  let w' := ref_use (fun w => fst (ref_step st t dim upd nanos stop [] writers w false)) (ref_run st t dim upd nanos start stop init [] writers) (repeat URun (Datatypes.S n)) w in
  w_step w' = stop /\ agree dim (w_cur w') (value (gen (nanos * (stop - start))) edge) /\ w_prev w' None = edge /\ Forall sees (w_log w') /\
  map ident (w_log w') = map ident (w_log w) ++ concat (repeat (expected_calls start stop writers) (Datatypes.S n)).
Proof using Hlt Hp Hover Hss Hset.
  induction n as [|n IH]; intros w Hc Hpr Hlog w'; pose proof (rerun_once w Hc Hpr Hlog) as R; cbn zeta in R.
  - subst w'. cbn [repeat concat]. rewrite app_nil_r. exact R.
  - destruct R as (R1 & R2 & R3 & R4 & R5). specialize (IH _ (proj1 R2) R3 R4). cbn zeta in IH. rewrite R5, <- app_assoc in IH. exact IH.
Qed.
End Rerun.

(** run() may be called again and again, and does the same each time: if the
    Initializer sets all cells, update() sets all members, and there are no
    Steerers. *)
Theorem C161_rerun : forall C S st t dim upd (dflt : C) nanos fixed bd cs th order start stop (init : prog C S) writers ic edge mem fuel n,
  sim_ok st t dim fixed th init [] writers -> schedule dim bd cs th order -> (start <= stop)%nat -> (stop - start <= fuel)%nat ->
  always_sets_up t dim dflt init ic edge -> overwrites upd ->
  let gen k := generation t dim st upd nanos edge ic (nanos * (k - start)) in
  exists s0 s, construct t dim dflt start init mem = Some s0 /\
    use (step st t dim upd nanos fixed bd cs th order stop [] writers) (run st t dim upd nanos fixed bd cs th order start stop init [] writers fuel) (repeat URun (Datatypes.S n)) s0 = Some s /\
    m_step s = stop /\ shows t dim (m_cur s) (gen stop) edge /\
    map (fun c => (wc_writer c, wc_step c, wc_event c)) (m_log s) = concat (repeat (expected_calls start stop writers) (Datatypes.S n)) /\
    Forall (fun c => shows t dim (wc_grid c) (gen (wc_step c)) edge) (m_log s).
Proof.
  intros C S st t dim upd dflt nanos fixed bd cs th order start stop init writers ic edge mem fuel n Hok Hsch Hss Hf Hset Hover gen. pose proof Hok as (_ & Hlt & Hp & _).
  destruct (C159_refines C S st t dim upd dflt nanos fixed bd cs th order start stop init [] writers mem fuel (repeat URun (Datatypes.S n)) Hok Hsch Hf) as (s0 & s & E0 & E & (M1 & M2 & _ & M4)).
  assert (H0 : agree dim (fill t dim init (fresh dflt dflt)) (value ic edge)) by (apply Hset; now left).
  pose proof (rerun_all st t dim upd nanos start stop init writers ic edge dflt Hlt Hp Hover Hss Hset n (ref_start t dim start init dflt mem) (proj1 H0) (proj1 H0) ltac:(constructor)) as Hw. cbn zeta in Hw.
  set (w := ref_use _ _ _ _) in *. destruct Hw as (W1 & W2 & _ & W3 & W4). cbn [ref_start w_log map app] in W4.
  assert (Hshow : forall g f h, displays t dim g f -> agree dim f (value h edge) -> shows t dim g h edge).
  { intros g f h [D1 D2] [A1 A2]. split; [rewrite D1, A1; reflexivity|]. intros c Hc. rewrite (D2 c (in_grid_close _ _ Hp Hc)). rewrite (denotes_self t dim c Hlt Hp Hc). now rewrite (A2 c Hc). }
  exists s0, s. split; [exact E0|]. split; [exact E|]. split; [congruence|]. split; [now apply (Hshow _ (w_cur w))|]. rewrite <- W4. clear - M4 W3 Hshow. induction M4 as [|a c la lc (Q1 & Q2 & Q3 & Q4) _ IH]; [split; [reflexivity|constructor]|].
  inversion W3 as [|? ? V1 V2]; subst. destruct (IH V2) as [I1 I2]. cbn [map]. split; [now rewrite I1, Q1, Q2, Q3|]. constructor; [|exact I2]. rewrite Q2. now apply (Hshow _ (wc_grid c)).
Qed.
Print Assumptions C161_rerun.

(** ** Examples *)

Lemma interleaves_rev {A} (ts : list (list A)) : interleaves ts (concat (rev ts)).
Proof.
  assert (H : forall us ds : list (list A), Forall (fun l => l = []) ds -> interleaves (us ++ ds) (concat (rev us))).
  { induction us as [|l us IH] using rev_ind; intros ds Hd; [now constructor|]. rewrite rev_app_distr. cbn [rev app concat]. rewrite <- app_assoc. cbn [app].
    induction l as [|a l IHl]; [cbn [app]; apply IH; now constructor|]. cbn [app]. now constructor. }
  specialize (H ts [] ltac:(constructor)). now rewrite app_nil_r in H.
Qed.

(** All threads at once: the last task first. *)
Definition backwards (dim : coord) (bd : build) (cs : conc) (th : threading) (_ : nat) : list act :=
  match obind (sim_area dim) (tasks bd cs th) with Some ts => concat (rev (work ts)) | None => [] end.

Lemma backwards_schedule dim bd cs th : schedule dim bd cs th (backwards dim bd cs th).
Proof. intros area ts E1 E2 k. unfold backwards. rewrite E1. cbn [obind]. rewrite E2. apply interleaves_rev. Qed.

Example C157_example :
  let r := insert_all (reg_empty 2) [mkStreak [1] 3 10; mkStreak [1] 12 14; mkStreak [2] 5 6] in
  let bd := mkBuild true true in let th := mkThreading false false 4 in
  rvalid 1 r /\
  tasks bd no_concurrency th r = Some [[mkStreak [1] 3 10; mkStreak [1] 12 14; mkStreak [2] 5 6]] /\
  tasks bd (enable_openmp true false) th r = Some [[mkStreak [1] 3 10; mkStreak [1] 12 14]; [mkStreak [2] 5 6]] /\
  tasks bd (enable_hpx true false) th r = Some [[mkStreak [1] 3 10; mkStreak [1] 12 14]; [mkStreak [2] 5 6]] /\
  tasks bd (enable_openmp true true) th r = Some [[mkStreak [1] 3 4]; [mkStreak [1] 4 8]; [mkStreak [1] 8 10]; [mkStreak [1] 12 14]; [mkStreak [2] 5 6]] /\
  interleaves (work [[mkStreak [1] 12 14]; [mkStreak [2] 5 7]])
    [(mkStreak [2] 5 7, 0); (mkStreak [1] 12 14, 0); (mkStreak [1] 12 14, 1); (mkStreak [2] 5 7, 1)].
Proof.
  intros r bd th. destruct (insert_all_valid 1 [mkStreak [1] 3 10; mkStreak [1] 12 14; mkStreak [2] 5 6] (reg_empty 2) (rvalid_empty 1)) as [V _]; [repeat constructor|].
  split; [exact V|]. split; [vm_compute; reflexivity|]. split; [vm_compute; reflexivity|]. split; [vm_compute; reflexivity|]. split; [vm_compute; reflexivity|].
  change (work _) with [[(mkStreak [1] 12 14, 0); (mkStreak [1] 12 14, 1)]; [(mkStreak [2] 5 7, 0); (mkStreak [2] 5 7, 1)]].
  apply (il_next [[(mkStreak [1] 12 14, 0); (mkStreak [1] 12 14, 1)]] []). cbn [app].
  apply (il_next [] [[(mkStreak [2] 5 7, 1)]]). cbn [app]. apply (il_next [] [[(mkStreak [2] 5 7, 1)]]). cbn [app]. apply (il_next [[]] []). constructor. repeat constructor.
Qed.

(** The sum of the neighborhood and the nano step. *)
Definition ex_upd (i : nat) (vs : list Z) (v : Z) : Z := fold_left Z.add vs (Z.of_nat i).

Definition ex_init {S} (s : S) : prog Z S := PSet [0; 0] 1 (PSet [0; 1] 2 (PSet [1; 0] 3 (PSet [1; 1] 4 (PSetEdge 10 (PDone s false))))).

Definition ex_cell (c : coord) : Z := 2 * hd 0 c + last c 0 + 1.

Lemma in_2x2 c : in_grid [2; 2] c -> c = [0; 0] \/ c = [0; 1] \/ c = [1; 0] \/ c = [1; 1].
Proof.
  intros H. destruct c as [|y [|x [|? ?]]]; unfold in_grid in H; cbn in H; try tauto. assert (Hy : y = 0 \/ y = 1) by lia. assert (Hx : x = 0 \/ x = 1) by lia.
  destruct Hy as [->| ->], Hx as [->| ->]; auto.
Qed.

Lemma ex_ok S (s : S) steerers writers fixed : Forall (fun y => (0 < y_period y)%nat /\ forall n e m, accesses (close_by [2; 2]) (y_act y n e m)) steerers -> Forall (fun p => (0 < p)%nat) writers ->
  sim_ok (mkStencil Moore 2 1) [true; false] [2; 2] fixed default_threading (ex_init s) steerers writers.
Proof.
  intros Hy Hw. split; [discriminate|]. split; [reflexivity|]. split; [repeat constructor; lia|].
  split; [intros c Hc; destruct (in_2x2 c Hc) as [->|[->|[->| ->]]]; cbn; repeat constructor; cbn; lia|].
  split; [intros _; split; [split; [reflexivity|split; [cbn; lia|discriminate]]|reflexivity]|]. split; [cbn; lia|]. split; [|split; assumption].
  unfold ex_init. repeat (constructor; try (cbn; lia)).
Qed.

Lemma ex_sets_up S (s : S) : always_sets_up [true; false] [2; 2] 0 (ex_init s) ex_cell 10.
Proof.
  intros f _. unfold fill, ex_init. cbn [effect]. change (denotes [true; false] [2; 2] [0; 0]) with (Some [0; 0]). change (denotes [true; false] [2; 2] [0; 1]) with (Some [0; 1]).
  change (denotes [true; false] [2; 2] [1; 0]) with (Some [1; 0]). change (denotes [true; false] [2; 2] [1; 1]) with (Some [1; 1]).
  split; [reflexivity|]. intros c Hc. destruct (in_2x2 c Hc) as [->|[->|[->| ->]]]; reflexivity.
Qed.

Example C158_example :
  let st := mkStencil Moore 2 1 in let t := [true; false] in let dim := [2; 2] in let cs := openmp_conc false in let bd := mkBuild true false in
  let th := default_threading in let ord := backwards dim bd cs th in
  sim_ok st t dim true th (ex_init tt) [] [1; 2]%nat /\ schedule dim bd cs th ord /\ sets_up t dim 0 (ex_init tt) ex_cell 10 /\ always_sets_up t dim 0 (ex_init tt) ex_cell 10 /\ overwrites ex_upd /\
  match obind (construct t dim 0 3 (ex_init tt) tt) (run st t dim ex_upd 1 true bd cs th ord 3 5 (ex_init tt) [] [1; 2]%nat 2) with
  | Some s => map (fun c => (wc_writer c, wc_step c, wc_event c, g_cells (d_grid (wc_grid c)))) (m_log s) =
      [(0%nat, 3%nat, IoInitialized, [1; 2; 3; 4]); (1%nat, 3%nat, IoInitialized, [1; 2; 3; 4]);
       (0%nat, 4%nat, IoStep, [47; 47; 43; 43]); (1%nat, 4%nat, IoStep, [47; 47; 43; 43]);
       (0%nat, 5%nat, IoAllDone, [296; 296; 304; 304]); (1%nat, 5%nat, IoAllDone, [296; 296; 304; 304])]
  | None => False
  end.
Proof.
  intros st t dim cs bd th ord. split; [apply ex_ok; repeat constructor; lia|]. split; [apply backwards_schedule|]. split; [split; apply ex_sets_up; [now left|now right]|]. split; [apply ex_sets_up|].
  split; [intros i vs v v'; reflexivity|]. vm_compute. reflexivity.
Qed.

(** A Steerer which doubles the cell at [1; 1] every other step, counts its
    calls, and ends the simulation at the third. *)
Definition ex_steerer : steerer Z nat :=
  mkSteerer 2 (fun _ _ m => PGet [1; 1] (fun v => PSet [1; 1] (2 * v) (PDone (Datatypes.S m) (Nat.leb 2 m)))).

Example C159_example :
  let st := mkStencil Moore 2 1 in let t := [true; false] in let dim := [2; 2] in let cs := openmp_conc true in let bd := mkBuild true false in
  let th := default_threading in let ord := backwards dim bd cs th in
  sim_ok st t dim false th (ex_init 0%nat) [ex_steerer] [1]%nat /\ schedule dim bd cs th ord /\
  match obind (construct t dim 0 0 (ex_init 0%nat) 0%nat) (use (step st t dim ex_upd 1 false bd cs th ord 9 [ex_steerer] [1]%nat)
          (run st t dim ex_upd 1 false bd cs th ord 0 9 (ex_init 0%nat) [ex_steerer] [1]%nat 9) [UStep; URun]) with
  | Some s => m_mem s = 4%nat /\ m_step s = 1%nat /\
      map (fun c => (wc_step c, wc_event c, g_cells (d_grid (wc_grid c)))) (m_log s) =
        [(1%nat, IoStep, [55; 55; 47; 47]); (0%nat, IoInitialized, [1; 2; 3; 8]); (1%nat, IoStep, [71; 71; 55; 55])]
  | None => False
  end.
Proof.
  intros st t dim cs bd th ord. split; [apply ex_ok; [|repeat constructor; lia]|split; [apply backwards_schedule|vm_compute; repeat split; reflexivity]].
  constructor; [|constructor]. split; [cbn; lia|]. intros n e m. constructor; [cbn; lia|]. intros v. constructor; [cbn; lia|constructor].
Qed.

(** ** C160: Steerers which set the edge cell *)

(** The edge cell as set by a Steerer is gone after one step, and back after
    another: it has been set in one of two grids only. Cells which copy their
    neighbor beyond the edge alternate accordingly. *)
Theorem C160_edge_refuted : exists (dim : coord) (init : prog Z unit) (y : steerer Z unit) (upd : nat -> list Z -> Z -> Z),
  let st := mkStencil Moore 1 1 in let t := [false] in
  sim_ok st t dim false default_threading init [y] [1]%nat /\ overwrites upd /\
  (forall m, y_act y 0 IoInitialized m = PSetEdge 9 (PDone m false)) /\ (forall n e m, e <> IoInitialized -> y_act y n e m = PDone m false) /\
  exists ord, schedule dim (mkBuild false false) serial_conc default_threading ord /\
  match obind (construct t dim 0 0 init tt) (run st t dim upd 1 false (mkBuild false false) serial_conc default_threading ord 0 4 init [y] [1]%nat 4) with
  | Some s => map (fun c => (wc_step c, g_edge (d_grid (wc_grid c)), g_cells (d_grid (wc_grid c)))) (m_log s) =
      [(0%nat, 9, [1]); (1%nat, 0, [9]); (2%nat, 9, [0]); (3%nat, 0, [9]); (4%nat, 9, [0])]
  | None => False
  end.
Proof.
  exists [1], (PSet [0] 1 (PDone tt false)), (mkSteerer 1 (fun n e m => match e with IoInitialized => PSetEdge 9 (PDone m false) | _ => PDone m false end)), (fun _ vs _ => hd 0 vs).
  cbv zeta. split; [|split; [intros i vs v v'; reflexivity|split; [reflexivity|split; [intros n e m He; destruct e; [congruence|reflexivity|reflexivity]|]]]].
  - split; [discriminate|]. split; [reflexivity|]. split; [repeat constructor; lia|].
    split; [intros c Hc; destruct c as [|x [|? ?]]; unfold in_grid in Hc; cbn in Hc; try tauto; cbn; repeat constructor; cbn; lia|].
    split; [discriminate|]. split; [cbn; lia|]. split; [repeat (constructor; try (cbn; lia))|]. split; [|repeat constructor; lia]. constructor; [|constructor]. split; [cbn; lia|]. intros n e m. destruct e; repeat constructor.
  - eexists. split; [apply backwards_schedule|]. vm_compute. reflexivity.
Qed.
Print Assumptions C160_edge_refuted.

(** ** C162: running a simulator again, with cells which keep members *)

(** The new grid isn't set up again: if update() doesn't set all members, the
    second run() differs from the first. *)
Theorem C162_rerun_refuted : exists (dim : coord) (init : prog Z unit) (upd : nat -> list Z -> Z -> Z) (ic : coord -> Z) (edge : Z),
  let st := mkStencil Moore 1 1 in let t := [false] in
  sim_ok st t dim false default_threading init [] [1]%nat /\ always_sets_up t dim 0 init ic edge /\
  exists ord, schedule dim (mkBuild false false) serial_conc default_threading ord /\
  match obind (construct t dim 0 0 init tt) (use (step st t dim upd 1 false (mkBuild false false) serial_conc default_threading ord 2 [] [1]%nat)
    (run st t dim upd 1 false (mkBuild false false) serial_conc default_threading ord 0 2 init [] [1]%nat 2) [URun; URun]) with
  | Some s => map (fun c => (wc_step c, g_cells (d_grid (wc_grid c)))) (m_log s) = [(0%nat, [1]); (1%nat, [2]); (2%nat, [2]); (0%nat, [1]); (1%nat, [3]); (2%nat, [2])]
  | None => False
  end.
Proof.
  exists [1], (PSet [0] 1 (PDone tt false)), (fun _ _ v => v + 1), (fun _ => 1), 0.
  cbv zeta. split; [|split].
  - split; [discriminate|]. split; [reflexivity|]. split; [repeat constructor; lia|].
    split; [intros c Hc; destruct c as [|x [|? ?]]; unfold in_grid in Hc; cbn in Hc; try tauto; cbn; repeat constructor; cbn; lia|].
    split; [discriminate|]. split; [cbn; lia|]. split; [repeat (constructor; try (cbn; lia))|]. split; [constructor|repeat constructor; lia].
  - intros f Hf. unfold fill. cbn [effect fst]. change (denotes [false] [1] [0]) with (Some [0]). split; [cbn; destruct Hf; assumption|]. intros c Hc.
    assert (c = [0]) as -> by (destruct c as [|x [|? ?]]; unfold in_grid in Hc; cbn in Hc; try tauto; f_equal; lia). reflexivity.
  - eexists. split; [apply backwards_schedule|]. vm_compute. reflexivity.
Qed.
Print Assumptions C162_rerun_refuted.
