(** Facts on SerialSimulator and OpenMPSimulator: they refine the reference
    simulation. *)
From Coq Require Import Permutation.
From Verif Require Import Base ListFacts RegionSpec RegionModel RegionRep RegionIterModel RegionStreaks RegionOpsModel RegionOps RegionGeometry HaloSpec
  CoordModel CoordSpec CoordFacts TopologyFacts PatchModel ConfigFacts GridModel GridSpec GridFacts DisplacedFacts GridReach SellFacts SoAProps
  StencilModel StencilSpec StencilFacts StencilProps UpdateModel UpdateSpec UpdateFacts UpdateProps PartitionManagerModel AdapterModel CudaSpec CudaFacts
  ThreadModel ThreadSpec ThreadPlanes ThreadFacts.

Section Run.
Context {C S : Type} (st : stencil) (t : topology) (dim : coord) (upd : nat -> list C -> C -> C) (dflt : C) (nanos : nat) (fixed : bool).
Context (bd : build) (cs : conc) (th : threading) (order : nat -> list act) (start stop : nat) (init : prog C S) (steerers : list (steerer C S)) (writers : list nat).
Context (Hok : sim_ok st t dim fixed th init steerers writers) (Hsch : schedule dim bd cs th order).
Notation gbox := (mkBox (zeros dim) dim).
Notation D := (drep (C := C) gbox (zeros dim)).
Notation den := (denotes t dim).

Lemma r_setup : setup_ok t false gbox (zeros dim).
Proof using Hok. clear - Hok.
  destruct Hok as (H1 & H2 & H3 & _). unfold setup_ok. cbn [b_origin b_dim]. unfold zeros. rewrite map_length. split; [|split; [congruence|split; [congruence|split; [exact H3|discriminate]]]].
  intros ->. destruct dim; [congruence|discriminate].
Qed.

Lemma close_length c : close_by dim c -> length c = length dim.
Proof using. clear Hok Hsch. revert c. generalize dim. induction dim0 as [|n l IH]; intros [|x c] H; try contradiction; [reflexivity|]. destruct H as [_ H]. cbn. now rewrite (IH c H). Qed.

Lemma r_place c : close_by dim c -> reachable_coord t false gbox (zeros dim) c /\ ddenotes t false gbox (zeros dim) c = den c.
Proof using Hok. clear - Hok.
  intros Hc. destruct Hok as (_ & H2 & _). pose proof (close_length c Hc) as Hl. unfold reachable_coord, ddenotes. cbn [b_origin b_dim]. rewrite zsub_zeros by exact Hl.
  split; [split; [congruence|exact Hc]|reflexivity].
Qed.

Lemma r_get d f c : D d f -> close_by dim c -> dg_get t false d c = Some (f (den c)).
Proof using Hok. clear - Hok. intros Hd Hc. destruct (r_place c Hc) as [H1 <-]. now apply (drep_get t false gbox (zeros dim) r_setup). Qed.

Lemma r_set d f c v : D d f -> close_by dim c -> exists d', dg_set t false d c v = Some d' /\ D d' (put f (den c) v).
Proof using Hok. clear - Hok. intros Hd Hc. destruct (r_place c Hc) as [H1 <-]. exact (drep_op t false gbox (zeros dim) r_setup d f (GSet c v) Hd H1). Qed.

Lemma r_set_edge d f v : D d f -> D (dg_set_edge d v) (put f None v).
Proof using Hok. clear - Hok. intros Hd. destruct (drep_op t false gbox (zeros dim) r_setup d f (GSetEdge v) Hd I) as (d' & E & R). cbn [dg_op] in E. assert (d' = dg_set_edge d v) as <- by congruence. exact R. Qed.

Lemma r_edge d f : D d f -> g_edge (d_grid d) = f None.
Proof using. clear Hok Hsch. intros (_ & _ & _ & _ & H & _). exact H. Qed.

Lemma r_displays d f : D d f -> displays t dim d f.
Proof using Hok. clear - Hok. intros Hd. split; [exact (r_edge d f Hd)|]. intros c Hc. now apply r_get. Qed.

Lemma r_agree d f f' : D d f -> agree dim f f' -> D d f'.
Proof using. clear Hok Hsch. intros (H1 & H2 & H3 & H4 & H5 & H6) [A1 A2]. split; [exact H1|]. split; [exact H2|]. split; [exact H3|]. split; [exact H4|]. split; [congruence|]. intros c Hc. rewrite (H6 c Hc). now rewrite A2. Qed.

Lemma r_prog p : accesses (close_by dim) p -> forall d f, D d f ->
  exists d', run_prog t p d = Some (d', snd (fst (effect den p f)), snd (effect (S := S) den p f)) /\ D d' (fst (fst (effect den p f))).
Proof using Hok. clear - Hok.
  induction 1 as [s e|c k Hc _ IH|c v p Hc _ IH|k _ IH|v p _ IH]; intros d f Hd; cbn [run_prog effect].
  - exists d. split; [reflexivity|exact Hd].
  - rewrite (r_get d f c Hd Hc). cbn [obind]. now apply IH.
  - destruct (r_set d f c v Hd Hc) as (d' & E & R). rewrite E. cbn [obind]. now apply IH.
  - rewrite (r_edge d f Hd). now apply IH.
  - apply IH. now apply r_set_edge.
Qed.

Lemma r_init d f : D d f -> exists d', initialize t init d = Some d' /\ D d' (fill t dim init f).
Proof using Hok. clear - Hok.
  intros Hd. pose proof Hok as (_ & _ & _ & _ & _ & _ & Hi & _). destruct (r_prog init Hi d f Hd) as (d' & E & R). exists d'. unfold initialize. rewrite E. split; [reflexivity|exact R].
Qed.

(** What is known of a simulator whose state stands for [w]. *)
Definition good (s : sim C S) (w : world C S) : Prop :=
  D (m_cur s) (w_cur w) /\ D (m_new s) (w_prev w) /\ m_step s = w_step w /\ m_mem s = w_mem w /\ Forall2 (same_call t dim) (m_log s) (w_log w).

Lemma r_area : exists area, sim_area dim = Some area /\ rvalid (length dim - 1) area /\ (forall c, inr (length dim - 1) area c <-> in_grid dim c) /\ bounding_box area = Some gbox.
Proof using Hok. clear - Hok. destruct Hok as (H1 & _ & H3 & _). apply sim_area_spec; [destruct dim; [congruence|cbn; lia]|exact H3]. Qed.

Lemma r_construct mem : exists s, construct t dim dflt start init mem = Some s /\ good s (ref_start t dim start init dflt mem).
Proof using Hok. clear - Hok.
  destruct r_area as (area & E & _ & _ & B). unfold construct. rewrite E. cbn [obind]. unfold sim_grid. rewrite B. cbn [option_map obind].
  destruct (r_init _ _ (drep_make t false gbox (zeros dim) r_setup dflt dflt)) as (c & E1 & R1). rewrite E1. cbn [obind]. eexists. split; [reflexivity|].
  split; [exact R1|]. split; [exact R1|]. split; [reflexivity|]. split; [reflexivity|constructor].
Qed.

(** Nano steps. *)
Lemma r_tasks : exists area ss ts, sim_area dim = Some area /\ rvalid (length dim - 1) area /\ reg_streaks area = Some ss /\ tasks bd cs th area = Some ts /\
  covers (length dim - 1) ss (concat ts) /\ (forall c, inr (length dim - 1) area c <-> in_grid dim c).
Proof using Hok. clear - Hok.
  destruct r_area as (area & E & Hv & Hin & _). destruct (streaks_valid _ _ Hv) as (ss & [_ Hss] & _ & Es & _). pose proof Hok as (Hne & _ & _ & _ & _ & Hg & _).
  destruct (tasks_spec (length dim - 1) bd cs th area ss Hv Es) as (ts & Et & Hc).
  { intros _. split; [exact Hg|]. destruct (region_coords_nodup _ area Hv) as (l & El & Hl & _). unfold region_coords in El. rewrite Es in El. cbn [option_map] in El. assert (l = flat_map streak_coords ss) as -> by congruence.
    rewrite Forall_forall in *. intros s Hs. destruct (Hss s Hs) as [Hp Hx]. assert (Hc : in_grid dim (s_pre s ++ [s_x s])).
    { apply Hin, Hl. apply in_flat_map. exists s. split; [exact Hs|]. unfold streak_coords. apply in_map_iff. exists (s_x s). split; [reflexivity|]. apply zrange_in. lia. }
    clear - Hc Hp Hne. revert Hc Hp. generalize (s_pre s), (s_x s). clear s. intros pre x. revert Hne. revert pre. induction dim as [|n l IH]; intros pre Hne Hc Hp; [congruence|].
    destruct pre as [|y pre]; cbn [app] in Hc; apply in_grid_cons in Hc; destruct Hc as [H0 Hc]; [lia|]. destruct l as [|n' l']; [cbn in Hp; lia|]. apply (IH pre); [discriminate|exact Hc|cbn in *; lia]. }
  exists area, ss, ts. auto 10.
Qed.

Lemma r_nano i s w : good s w -> exists s', nano_step st t dim upd fixed bd cs th order i s = Some s' /\
  good s' (mkWorld (advance t dim st (upd i) (w_cur w) (w_prev w)) (w_cur w) (w_step w) (w_mem w) (w_log w)).
Proof using Hok Hsch. clear - Hok Hsch.
  intros (G1 & G2 & G3 & G4 & G5). pose proof r_setup as HS. pose proof r_place as HP. destruct r_tasks as (area & ss & ts & Ea & Hv & Es & Et & Hcov & Hin). pose proof Hok as (Hne & Hlt & Hp & Hnb & Hfix & _).
  set (n := (length dim - 1)%nat) in *. assert (Hn : length dim = Datatypes.S n) by (destruct dim; [congruence|cbn in n |- *; lia]).
  assert (Lz : length (zeros dim) = Datatypes.S n) by (unfold zeros; now rewrite map_length).
  destruct (order_facts n area ss ts (order (m_ticks s)) Hv Es Hcov (Hsch area ts Ea Et (m_ticks s))) as (O1 & O2 & O3 & O4).
  assert (O5 : forall c, In c (map act_coord (order (m_ticks s))) <-> in_grid dim c) by (intros c; now rewrite O3).
  unfold nano_step. rewrite Ea. cbn [obind]. rewrite Et. cbn [obind]. pose proof G1 as (A1 & A2 & A3 & _). pose proof G2 as (B1 & B2 & B3 & _). cbn [b_origin b_dim] in A1, A3, B1, B3. rewrite A1, A3.
  set (van := van_act st (upd i) (d_grid (m_cur s)) (dg_loc t false (m_cur s)) (dg_loc t false (m_new s)) (zeros dim) (zeros dim)).
  assert (Hz : forall c, in_grid dim c -> zadd c (zeros dim) = c).
  { intros c Hc. apply in_grid_length in Hc. revert c Hc. clear. induction dim as [|x l IH]; intros [|y c] H; try discriminate; [reflexivity|]. cbn [zeros map zadd]. fold (zeros l). rewrite IH by (cbn in H; lia). f_equal. lia. }
  assert (Hone : forall g, run_acts (if fixed then lp_act st (upd i) t (d_grid (m_cur s)) (dg_loc t false (m_cur s)) gbox (dg_loc t false (m_new s)) (zeros dim) (zeros dim) else van) (order (m_ticks s)) g = run_acts van (order (m_ticks s)) g).
  { destruct fixed eqn:Ef; [|reflexivity]. destruct (Hfix eq_refl) as [Hst Hd]. intros g. apply run_acts_ext. intros a g0 Ha.
    assert (Hc : Forall (in_grid dim) (streak_coords (fst a))).
    { apply Forall_forall. intros c Hc. apply Hin. destruct (region_coords_nodup _ area Hv) as (l & El & Hl & _). unfold region_coords in El. rewrite Es in El. cbn [option_map] in El. assert (l = flat_map streak_coords ss) as -> by congruence.
      apply Hl. rewrite <- (proj1 Hcov). apply in_flat_map. exists (fst a). split; [now apply O4|exact Hc]. }
    apply (lp_act_van C st (upd i) t false gbox (zeros dim) (m_cur s) false gbox (zeros dim) (m_new s) a (zeros dim) Hst ltac:(congruence) HS A1 A2 A3 HS B1 B2 B3).
    - rewrite Forall_forall in O1. specialize (O1 a Ha). unfold act_ok in *. rewrite Hlt. exact O1.
    - congruence.
    - rewrite Forall_forall in *. intros c Hc'. apply in_box_grid; [now apply in_grid_length, Hc|now apply Hc].
    - rewrite Forall_forall in *. intros c Hc'. rewrite Hz by now apply Hc. apply in_box_grid; [now apply in_grid_length, Hc|now apply Hc]. }
  rewrite Hone. unfold van. rewrite (run_acts_bodies st (upd i) _ _ _ (zeros dim) (zeros dim) n _ O1 Lz Lz).
  destruct (run_spec st (upd i) t false gbox (zeros dim) r_setup (m_cur s) (w_cur w) G1 false gbox (zeros dim) r_setup (m_new s) (w_prev w) G2 n ltac:(congruence) (zeros dim) (zeros dim) Lz Lz
    (map cell_streak (order (m_ticks s))) (d_grid (m_new s)) (w_prev w) (cell_streaks_ok n _ O1) (proj2 (proj2 G2))) as (g' & E & R).
  { rewrite cells_coords. apply Forall_forall. intros c Hc. apply O5 in Hc. rewrite Hz by exact Hc. split.
    - apply (Forall_impl _ (fun c' => fun H => proj1 (r_place c' H)) (Hnb c Hc)).
    - apply r_place. now apply in_grid_close. }
  rewrite E. cbn [obind]. eexists. split; [reflexivity|]. split; [|split; [exact G1|split; [exact G3|split; [exact G4|exact G5]]]]. cbn [m_cur w_cur].
  pose proof (drep_with gbox (zeros dim) (m_new s) g' (w_prev w) G2 _ R) as RD. eapply r_agree; [exact RD|]. rewrite cells_coords.
  set (op := fun c => (ddenotes t false gbox (zeros dim) (zadd c (zeros dim)), _)).
  assert (Hop : forall c, in_grid dim c -> fst (op c) = Some c).
  { intros c Hc. cbn [op fst]. rewrite Hz by exact Hc. rewrite (proj2 (r_place c (in_grid_close _ _ Hp Hc))). now apply denotes_self. }
  split.
  - rewrite modify_other; [reflexivity|]. rewrite map_map. intros Hx. apply in_map_iff in Hx. destruct Hx as (c & Hc & Hc'). apply O5 in Hc'. rewrite Hop in Hc by exact Hc'. discriminate.
  - intros c Hc. rewrite (modify_at _ _ (Some c) (snd (op c))).
    + cbn [op snd advance]. rewrite Hz by exact Hc. f_equal. apply map_ext_in. intros c' Hc'. f_equal. apply r_place. specialize (Hnb c Hc). rewrite Forall_forall in Hnb. now apply Hnb.
    + rewrite map_map. apply nodup_map_in; [exact O2|]. intros a c' Ha Hc' Eq. apply O5 in Ha. apply O5 in Hc'. rewrite !Hop in Eq by assumption. congruence.
    + apply in_map_iff. exists c. split; [|now apply O5]. rewrite <- (Hop c Hc). now destruct (op c).
Qed.

Lemma r_nanos n : forall i s w, good s w -> exists s', nano_steps st t dim upd fixed bd cs th order i n s = Some s' /\
  good s' (mkWorld (fst (advances st t dim upd i n (w_cur w) (w_prev w))) (snd (advances st t dim upd i n (w_cur w) (w_prev w))) (w_step w) (w_mem w) (w_log w)).
Proof using Hok Hsch. clear - Hok Hsch.
  induction n as [|n IH]; intros i s w G; cbn [nano_steps advances]; [exists s; split; [reflexivity|destruct w; exact G]|].
  destruct (r_nano i s w G) as (s1 & E1 & G1). rewrite E1. cbn [obind]. exact (IH (Datatypes.S i) s1 _ G1).
Qed.

Lemma r_due e k p : (0 < p)%nat -> due e k p = Some (is_due e k p).
Proof using. clear Hok Hsch. intros Hp. destruct e; try reflexivity. cbn. destruct p; [inversion Hp|reflexivity]. Qed.

Lemma r_input e l : Forall (fun y => (0 < y_period y)%nat /\ forall n e m, accesses (close_by dim) (y_act y n e m)) l -> forall s w en, good s w ->
  let '(f, m, en') := steer t dim e (w_step w) l (w_cur w) (w_mem w) en in
  exists s', handle_input t e l s en = Some (s', en') /\ good s' (mkWorld f (w_prev w) (w_step w) m (w_log w)).
Proof using Hok. clear - Hok.
  induction 1 as [|y l [Hp Ha] _ IH]; intros s w en G; cbn [steer handle_input]; [exists s; split; [reflexivity|destruct w; exact G]|].
  pose proof G as (G1 & G2 & G3 & G4 & G5). rewrite G3, G4. rewrite (r_due e _ _ Hp). cbn [obind]. destruct (is_due e (w_step w) (y_period y)).
  - destruct (r_prog _ (Ha (w_step w) e (w_mem w)) (m_cur s) (w_cur w) G1) as (d' & E & R). rewrite E. cbn [obind]. destruct (effect den _ (w_cur w)) as [[f m] en1]. cbn [fst snd] in *.
    specialize (IH (mkSim d' (m_new s) (w_step w) m (m_log s) (m_ticks s)) (mkWorld f (w_prev w) (w_step w) m (w_log w)) (en || en1)). cbn [w_cur w_prev w_step w_mem w_log] in IH. apply IH.
    split; [exact R|]. split; [exact G2|]. split; [reflexivity|]. split; [reflexivity|exact G5].
  - now apply IH.
Qed.

Lemma r_input' e s w en : good s w -> exists s', handle_input t e steerers s en = Some (s', snd (input t dim steerers e w en)) /\ good s' (fst (input t dim steerers e w en)).
Proof using Hok. clear - Hok.
  intros G. pose proof Hok as (_ & _ & _ & _ & _ & _ & _ & Hy & _). pose proof (r_input e steerers Hy s w en G) as H. unfold input. destruct (steer _ _ _ _ _ _ _ _) as [[f m] en']. exact H.
Qed.

Lemma r_output e l : Forall (fun p => (0 < p)%nat) l -> forall k s w, good s w -> exists s', handle_output e k l s = Some s' /\
  good s' (mkWorld (w_cur w) (w_prev w) (w_step w) (w_mem w) (w_log w ++ map (fun x => mkWCall (fst x) (w_step w) e (w_cur w)) (filter (fun x => is_due e (w_step w) (snd x)) (combine (seq k (length l)) l)))).
Proof using Hok. clear - Hok.
  induction 1 as [|p l Hp _ IH]; intros k s w G; cbn [handle_output length seq combine filter map].
  - exists s. split; [reflexivity|]. rewrite app_nil_r. destruct w; exact G.
  - pose proof G as (G1 & G2 & G3 & G4 & G5). rewrite G3, (r_due e _ _ Hp). cbn [obind fst snd]. destruct (is_due e (w_step w) p); [|now apply IH].
    specialize (IH (Datatypes.S k) (mkSim (m_cur s) (m_new s) (w_step w) (m_mem s) (m_log s ++ [mkWCall k (w_step w) e (m_cur s)]) (m_ticks s)) (mkWorld (w_cur w) (w_prev w) (w_step w) (w_mem w) (w_log w ++ [mkWCall k (w_step w) e (w_cur w)]))).
    cbn [w_cur w_prev w_step w_mem w_log] in IH. cbn [map fst]. rewrite <- app_assoc in IH. cbn [app] in IH. apply IH.
    split; [exact G1|]. split; [exact G2|]. split; [reflexivity|]. split; [exact G4|]. apply Forall2_app; [exact G5|]. constructor; [|constructor].
    split; [reflexivity|]. split; [reflexivity|]. split; [reflexivity|]. now apply r_displays.
Qed.

Lemma r_output' e s w : good s w -> exists s', handle_output e 0 writers s = Some s' /\ good s' (output writers e w).
Proof using Hok. clear - Hok. intros G. pose proof Hok as (_ & _ & _ & _ & _ & _ & _ & _ & Hw). exact (r_output e writers Hw 0 s w G). Qed.

Notation model_step := (step_with st t dim upd nanos fixed bd cs th order stop steerers writers).
Notation spec_step := (ref_step st t dim upd nanos stop steerers writers).

Lemma r_step s w en : good s w -> exists s', model_step s en = Some (s', snd (spec_step w en)) /\ good s' (fst (spec_step w en)).
Proof using Hok Hsch. clear - Hok Hsch.
  intros G. unfold step_with, ref_step. destruct (r_input' IoStep s w en G) as (s1 & E1 & G1). rewrite E1. cbn [obind]. destruct (input t dim steerers IoStep w en) as [w1 en1]. cbn [fst snd] in *.
  destruct (r_nanos nanos 0 s1 w1 G1) as (s2 & E2 & G2). rewrite E2. cbn [obind]. destruct (advances st t dim upd 0 nanos (w_cur w1) (w_prev w1)) as [cur prev]. cbn [fst snd] in *.
  cbn [m_step]. pose proof G2 as (K1 & K2 & K3 & K4 & K5). cbn [w_step] in K3.
  assert (G3 : good (mkSim (m_cur s2) (m_new s2) (Datatypes.S (m_step s2)) (m_mem s2) (m_log s2) (m_ticks s2)) (mkWorld cur prev (Datatypes.S (w_step w1)) (w_mem w1) (w_log w1))).
  { split; [exact K1|]. split; [exact K2|]. split; [cbn; now rewrite K3|]. split; [exact K4|exact K5]. }
  rewrite K3 in *. destruct (r_output' (if Nat.eqb (Datatypes.S (w_step w1)) stop then IoAllDone else IoStep) _ _ G3) as (s4 & E4 & G4). rewrite E4. exists s4. split; [reflexivity|exact G4].
Qed.

Lemma input_step e w en : w_step (fst (input t dim steerers e w en)) = w_step w.
Proof using. clear Hok Hsch. unfold input. destruct (steer _ _ _ _ _ _ _ _) as [[f m] en']. reflexivity. Qed.

Lemma ref_step_step w en : w_step (fst (spec_step w en)) = Datatypes.S (w_step w).
Proof using. clear Hok Hsch.
  unfold ref_step. pose proof (input_step IoStep w en) as H. destruct (input t dim steerers IoStep w en) as [w1 en1]. cbn [fst] in H. destruct (advances _ _ _ _ _ _ _ _) as [a b]. cbn. now rewrite H.
Qed.

Lemma r_loop k : forall fuel s w en, (k <= fuel)%nat -> k = (stop - w_step w)%nat -> good s w ->
  exists s', loop st t dim upd nanos fixed bd cs th order stop steerers writers fuel s en = Some (s', snd (ref_loop st t dim upd nanos stop steerers writers k w en)) /\
    good s' (fst (ref_loop st t dim upd nanos stop steerers writers k w en)).
Proof using Hok Hsch. clear - Hok Hsch.
  induction k as [|k IH]; intros fuel s w en Hf Hk G; pose proof G as (_ & _ & G3 & _).
  - assert (El : loop st t dim upd nanos fixed bd cs th order stop steerers writers fuel s en = Some (s, en)).
    { destruct fuel; cbn [loop]; replace (m_step s <? stop)%nat with false by (symmetry; apply Nat.ltb_ge; lia); reflexivity. }
    rewrite El. exists s. split; [reflexivity|exact G].
  - destruct fuel as [|fuel]; [lia|]. cbn [loop ref_loop]. replace (m_step s <? stop)%nat with true by (symmetry; apply Nat.ltb_lt; lia).
    destruct en; [exists s; split; [reflexivity|exact G]|]. destruct (r_step s w false G) as (s1 & E1 & G1). rewrite E1. cbn [obind]. pose proof (ref_step_step w false) as Hw.
    destruct (spec_step w false) as [w1 en1]. cbn [fst snd] in *. apply IH; [lia|lia|exact G1].
Qed.

Lemma r_run fuel s w : (stop - start <= fuel)%nat -> good s w ->
  exists s', run st t dim upd nanos fixed bd cs th order start stop init steerers writers fuel s = Some s' /\
    good s' (ref_run st t dim upd nanos start stop init steerers writers w).
Proof using Hok Hsch. clear - Hok Hsch.
  intros Hf (G1 & G2 & G3 & G4 & G5). unfold run, ref_run. destruct (r_init _ _ G1) as (g & E & R). rewrite E. cbn [obind].
  assert (G' : good (mkSim g (m_new s) start (m_mem s) (m_log s) (m_ticks s)) (mkWorld (fill t dim init (w_cur w)) (w_prev w) start (w_mem w) (w_log w))).
  { split; [exact R|]. split; [exact G2|]. split; [reflexivity|]. split; [exact G4|exact G5]. }
  destruct (r_input' IoInitialized _ _ false G') as (s1 & E1 & K1). rewrite E1. cbn [obind]. pose proof (input_step IoInitialized (mkWorld (fill t dim init (w_cur w)) (w_prev w) start (w_mem w) (w_log w)) false) as Hst.
  destruct (input t dim steerers IoInitialized _ false) as [w1 en1]. cbn [fst snd w_step] in *.
  destruct (r_output' IoInitialized s1 w1 K1) as (s2 & E2 & K2). rewrite E2. cbn [obind].
  destruct (r_loop (stop - start) fuel s2 (output writers IoInitialized w1) en1 Hf ltac:(cbn; now rewrite Hst) K2) as (s3 & E3 & K3). rewrite E3. cbn [obind].
  destruct (ref_loop _ _ _ _ _ _ _ _ _ _ _) as [w2 en2]. cbn [fst snd] in *.
  destruct (r_input' IoAllDone s3 w2 en2 K3) as (s4 & E4 & K4). rewrite E4. cbn [option_map fst]. exists s4. split; [reflexivity|exact K4].
Qed.

Lemma good_mirrors s w : good s w -> mirrors t dim s w.
Proof using Hok. clear - Hok. intros (G1 & G2 & G3 & G4 & G5). split; [now apply r_displays|auto]. Qed.
End Run.
