(** Facts on ParallelMemoryWriter. *)
From Verif Require Import Base ListFacts RegionSpec RegionModel RegionRep RegionIterModel RegionStreaks RegionOpsModel RegionOps RegionObjModel HaloSpec
  CoordModel CoordSpec CoordFacts TopologyFacts PatchModel ConfigFacts SellModel AdjacencyFacts UpdateModel GridModel GridSpec GridFacts DisplacedFacts GridReach GridProps
  SoARep PartitionManagerModel CollectModel CollectSpec CollectFacts ParMemModel ParMemSpec.

(** ** Grids *)

Section Grids.
Context {C E : Type}.
Variables (t : topology) (correct : bool) (dflt : C) (n : nat) (dims : coord) (G : Z -> coord -> C) (Edge : Z -> C).
Hypotheses (Ht : length t = S n) (Hdims : length dims = S n) (Hpos : allpos dims).

Notation gbox := (mkBox (zeros dims) dims).
Notation reach := (dg_reach t false gbox (zeros dims)).

(** A Streak inside of the global grid *)
Definition inner (s : streak) : Prop := s_x s < s_e s /\ Forall (in_grid dims) (streak_coords s).

Lemma in_place c : in_grid dims c -> reachable_coord t false gbox (zeros dims) c /\ ddenotes t false gbox (zeros dims) c = Some c /\ reachable_in_streak false gbox c.
Proof.
  intros Hc. split; [now apply (collect_reachable t n)|]. split; [now apply (collect_denotes t n)|].
  pose proof (in_grid_length _ _ Hc) as Hl. unfold reachable_in_streak. cbn [b_dim b_origin]. split; [exact Hl|]. rewrite zsub_zeros by exact Hl. now apply in_grid_close.
Qed.

Lemma inner_bounds g s : reach g -> inner s -> box_in_bounds_streak (dg_box (C := C) g) s = true.
Proof.
  intros Hr [Hx Hin]. rewrite (collect_box t n dims Ht Hdims Hpos g Hr). rewrite Forall_forall in Hin.
  assert (Hg : forall x, s_x s <= x < s_e s -> in_grid dims (s_pre s ++ [x])) by (intros x Hx'; apply Hin, in_streak_coords; lia).
  assert (Ho : in_grid dims (s_origin s)) by (apply Hg; lia).
  assert (Hno : forall t', length t' = length dims -> out_of_bounds t' (s_origin s) dims = false).
  { intros t' Hl'. destruct (out_of_bounds t' (s_origin s) dims) eqn:E0; [|reflexivity]. apply denotes_oob in E0; auto. rewrite denotes_self in E0 by auto. discriminate. }
  unfold box_in_bounds_streak. cbn [b_origin b_dim]. pose proof (in_grid_length _ _ Ho) as Hlo. rewrite zsub_zeros by exact Hlo.
  rewrite (Hno (cube (length (s_origin s)))) by (unfold cube; rewrite repeat_length; exact Hlo). cbn [negb andb].
  assert (Hne : dims <> []) by (intros ->; discriminate).
  destruct (dim_snoc dims Hne) as (dp & m & E0). specialize (Hg (s_e s - 1) ltac:(lia)). pose proof (in_grid_length _ _ Hg) as Hlg. clear - Hg Hlg E0 Hx. unfold zeros. rewrite E0 in Hg, Hlg |- *. rewrite map_app. cbn [map]. rewrite !last_last.
  rewrite !app_length in Hlg. cbn in Hlg. apply grid_snoc in Hg; [|lia]. apply Z.leb_le. lia.
Qed.

Lemma lw_value (f : place -> C) (V : coord -> C) c cs : (forall c', In c' cs -> in_grid dims c') ->
  last_written f (combine (map (ddenotes t false gbox (zeros dims)) cs) (map V cs)) (Some c) = if in_dec (list_eq_dec Z.eq_dec) c cs then V c else f (Some c).
Proof.
  intros Hcs. unfold last_written. generalize (f (Some c)) as v. clear f. induction cs as [|a cs IH]; intros v; [reflexivity|].
  cbn [map combine fold_left fst snd]. destruct (in_place a (Hcs a (or_introl eq_refl))) as (_ & -> & _). rewrite IH by (intros; apply Hcs; now right).
  destruct (place_dec (Some a) (Some c)) as [E0|E0].
  - injection E0 as ->. destruct (in_dec (list_eq_dec Z.eq_dec) c cs), (in_dec (list_eq_dec Z.eq_dec) c (c :: cs)) as [|N]; try reflexivity; exfalso; apply N; now left.
  - destruct (in_dec (list_eq_dec Z.eq_dec) c cs) as [Hi|Hi], (in_dec (list_eq_dec Z.eq_dec) c (a :: cs)) as [Hj|Hj]; try reflexivity.
    + exfalso. apply Hj. now right.
    + destruct Hj as [->|Hj]; [congruence|contradiction].
Qed.

Definition put_cells (V : coord -> C) (cs : list coord) (g g' : dgrid C) : Prop :=
  reach g' /\ g_edge (d_grid g') = g_edge (d_grid g) /\
  forall c, in_grid dims c -> dg_get t false g' c = if in_dec (list_eq_dec Z.eq_dec) c cs then Some (V c) else dg_get t false g c.

Lemma set_inner (g : dgrid C) s V : reach g -> inner s -> exists g', dg_set_streak t g s (map V (streak_coords s)) = Some g' /\ put_cells V (streak_coords s) g g'.
Proof.
  intros Hr [Hx Hin]. rewrite Forall_forall in Hin. pose proof (collect_setup t n dims Ht Hdims Hpos) as Hs.
  destruct (dg_reach_rep _ _ _ _ _ Hs Hr) as [f Hf].
  assert (Hok : access_ok (reachable_coord t false gbox (zeros dims)) (reachable_in_streak false gbox) (GSetStreak s (map V (streak_coords s)))).
  { split; [lia|]. split; [|now rewrite map_length]. apply Forall_forall. intros c Hc. now apply in_place, Hin. }
  destruct (drep_op t false gbox (zeros dims) Hs g f _ Hf Hok) as (g' & Eg & Hf'). exists g'. split; [exact Eg|]. split; [|split].
  - eapply reach_op; eauto.
  - destruct Hf' as (_ & _ & Hr'). destruct Hf as (_ & _ & Hr0). destruct Hr' as (_ & _ & He' & _). destruct Hr0 as (_ & _ & He & _). rewrite He', He.
    cbn [writes]. unfold last_written. assert (K : forall cs v, (forall c, In c cs -> in_grid dims c) ->
      fold_left (fun acc (w : place * C) => if place_dec (fst w) None then snd w else acc) (combine (map (ddenotes t false gbox (zeros dims)) cs) (map V cs)) v = v).
    { induction cs as [|a cs IH]; intros v Hcs; [reflexivity|]. cbn [map combine fold_left fst snd]. destruct (in_place a (Hcs a (or_introl eq_refl))) as (_ & -> & _).
      destruct (place_dec (Some a) None); [discriminate|]. apply IH. intros; apply Hcs; now right. }
    now apply K.
  - intros c Hc. destruct (in_place c Hc) as (R1 & R2 & _). rewrite (drep_get t false gbox (zeros dims) Hs _ _ c Hf' R1), (drep_get t false gbox (zeros dims) Hs _ _ c Hf R1), R2.
    cbn [writes]. rewrite lw_value by exact Hin. now destruct (in_dec (list_eq_dec Z.eq_dec) c (streak_coords s)).
Qed.

Lemma put_trans V a b g g1 g2 : put_cells V a g g1 -> put_cells V b g1 g2 -> put_cells V (a ++ b) g g2.
Proof.
  intros (_ & E1 & H1) (R2 & E2 & H2). split; [exact R2|]. split; [congruence|]. intros c Hc. rewrite H2, H1 by exact Hc.
  destruct (in_dec (list_eq_dec Z.eq_dec) c b) as [Hb|Hb], (in_dec (list_eq_dec Z.eq_dec) c a) as [Ha|Ha], (in_dec (list_eq_dec Z.eq_dec) c (a ++ b)) as [Hab|Hab]; try reflexivity; rewrite in_app_iff in Hab; tauto.
Qed.

Lemma put_nil V g : reach g -> put_cells V [] g g.
Proof. intros H. split; [exact H|]. split; [reflexivity|]. intros c _. reflexivity. Qed.

Lemma get_inner (g : dgrid C) s V : reach g -> inner s -> (forall c, In c (streak_coords s) -> dg_get t false g c = Some (V c)) -> raw_read t g s = Some (map V (streak_coords s)).
Proof.
  intros Hr Hi HV. unfold raw_read. rewrite inner_bounds by assumption. destruct Hi as [Hx Hin]. rewrite Forall_forall in Hin. pose proof (collect_setup t n dims Ht Hdims Hpos) as Hs.
  destruct (dg_reach_rep _ _ _ _ _ Hs Hr) as [f Hf]. rewrite (drep_get_streak t false gbox (zeros dims) Hs g f s Hf); [|lia|apply Forall_forall; intros c Hc; now apply in_place, Hin].
  f_equal. apply map_ext_in. intros c Hc. specialize (HV c Hc). destruct (in_place c (Hin c Hc)) as (R1 & _). rewrite (drep_get t false gbox (zeros dims) Hs _ _ c Hf R1) in HV. congruence.
Qed.

(** The Streaks of a report *)
Definition streaks_of (r : indices) : list streak := match reg_streaks r with Some ss => ss | None => [] end.

Lemma report_streaks (k : wcall C E) : report_ok t correct n dims G Edge k -> reg_streaks (k_region k) = Some (streaks_of (k_region k)) /\
  Forall inner (streaks_of (k_region k)) /\ rg_idx (rg_insert_all (rg_new (S n)) (streaks_of (k_region k))) = k_region k /\
  (forall c, In c (flat_map streak_coords (streaks_of (k_region k))) <-> inr n (k_region k) c).
Proof.
  intros (_ & Hv & Hin & _). destruct (region_roundtrip n _ Hv) as (ss & E1 & E2). destruct (streaks_valid n _ Hv) as (ss' & Hok & Hiff & E3 & _).
  assert (ss' = ss) as -> by congruence. unfold streaks_of. rewrite E1. split; [reflexivity|].
  assert (K : forall c, In c (flat_map streak_coords ss) <-> inr n (k_region k) c).
  { intros c. destruct (region_coords_spec n _ Hv) as (l & El & Hl). unfold region_coords in El. rewrite E1 in El. cbn [option_map] in El. injection El as <-. apply Hl. }
  split; [|split; [exact E2|exact K]]. apply Forall_forall. intros s Hs. destruct Hok as [_ Hok]. rewrite Forall_forall in Hok. split; [apply (Hok s Hs)|].
  apply Forall_forall. intros c Hc. apply Hin, K, in_flat_map. exists s. now split.
Qed.

Lemma copy_ok (k : wcall C E) ss : report_ok t correct n dims G Edge k -> Forall inner ss -> (forall c, In c (flat_map streak_coords ss) -> inr n (k_region k) c) ->
  forall g, reach g -> exists g', copy_streaks t (k_grid k) g ss = Some g' /\ put_cells (G (k_step k)) (flat_map streak_coords ss) g g'.
Proof.
  intros Hk Hin Hc. pose proof Hk as (_ & _ & _ & _ & b & topo & Hs & Hr & Hg). destruct (dg_reach_rep _ _ _ _ _ Hs Hr) as [f Hf].
  induction ss as [|s ss IH]; intros g Hg0; [exists g; split; [reflexivity|now apply put_nil]|].
  inversion Hin as [|? ? H1 H2]; subst. cbn [copy_streaks flat_map] in *.
  assert (Hb : forall c, In c (streak_coords s) -> inr n (k_region k) c) by (intros c Hi; apply Hc, in_or_app; now left).
  assert (Hbox : forall c, in_box b c -> reachable_coord t correct b topo c /\ reachable_in_streak correct b c).
  { clear - Hs. intros c Hi. destruct Hs as (Hne & Ho & Hld & Hp & Hle). pose proof Hi as Hi0. unfold in_box in Hi. apply in_box_zsub in Hi; [|lia]. destruct Hi as [Hlc Hi]. unfold reachable_coord, reachable_in_streak.
    destruct (bool_cases correct) as [Ec|Ec]; rewrite Ec in *.
    - specialize (Hle eq_refl). pose proof (forall2_length _ _ _ Hle) as Hlt. pose proof (in_grid_le _ _ Hle _ Hi) as Hc'. pose proof (forall2_le_pos _ _ Hp Hle) as Hpt.
      split; [|exact Hi0]. split; [lia|]. split; [now apply in_grid_close|]. intros c' E'. rewrite denotes_self in E' by (auto; lia). assert (c' = zsub c (b_origin b)) as -> by congruence. exact Hi.
    - split; [split; [lia|]|split; [lia|]]; now apply in_grid_close. }
  rewrite (drep_get_streak t correct b topo Hs (k_grid k) f s Hf); [|destruct H1; lia|apply Forall_forall; intros c Hi; apply Hbox, Hg, Hb, Hi]. cbn [obind].
  assert (Ev : map (fun c => f (ddenotes t correct b topo c)) (streak_coords s) = map (G (k_step k)) (streak_coords s)).
  { apply map_ext_in. intros c Hi. destruct (Hg c (Hb c Hi)) as [K1 K2]. rewrite (drep_get t correct b topo Hs _ f c Hf (proj1 (Hbox c K1))) in K2. congruence. }
  rewrite Ev. destruct (set_inner g s (G (k_step k)) Hg0 H1) as (g1 & E1 & P1). rewrite E1. cbn [obind].
  destruct (IH H2 ltac:(intros c Hi; apply Hc, in_or_app; now right) g1 (proj1 P1)) as (g2 & E2 & P2). exists g2. split; [exact E2|]. eapply put_trans; eauto.
Qed.

Lemma store_ok (k : wcall C E) : report_ok t correct n dims G Edge k -> forall g, reach g \/ b_dim (dg_box g) <> dims ->
  exists g', store_own t dflt g k = Some g' /\ reach g' /\ g_edge (d_grid g') = Edge (k_step k) /\
    (forall c, inr n (k_region k) c -> dg_get t false g' c = Some (G (k_step k) c)) /\
    (reach g -> forall c, in_grid dims c -> dg_get t false g' c = Some (G (k_step k) c) \/ dg_get t false g' c = dg_get t false g c).
Proof.
  intros Hk g Hg. pose proof Hk as (Hd & _ & Hin & He & _). destruct (report_streaks k Hk) as (E1 & Hi & _ & K). unfold store_own. rewrite E1, Hd. cbn [obind].
  set (g1 := if CoordModel.coord_eqb (b_dim (dg_box g)) dims then g else _).
  assert (Hg1 : reach g1 /\ (reach g -> g1 = g)).
  { unfold g1. destruct (CoordModel.coord_eqb (b_dim (dg_box g)) dims) eqn:Eq.
    - split; [|reflexivity]. destruct Hg as [Hg|Hg]; [exact Hg|]. exfalso. apply Hg. now apply coord_eqb_eq.
    - split; [apply reach_make|]. intros Hr. exfalso. rewrite (collect_box t n dims Ht Hdims Hpos g Hr) in Eq. cbn [b_dim] in Eq. assert (Q : CoordModel.coord_eqb dims dims = true) by now apply coord_eqb_eq. congruence. }
  destruct Hg1 as [Hg1 Hgg]. destruct (copy_ok k _ Hk Hi (fun c => proj1 (K c)) g1 Hg1) as (g2 & E2 & P). rewrite E2. cbn [option_map].
  destruct P as (R2 & _ & P). destruct (collect_edge t n dims Ht Hdims Hpos g2 (g_edge (d_grid (k_grid k))) R2) as (R3 & E3 & H3).
  eexists. split; [reflexivity|]. split; [exact R3|]. split; [congruence|]. split.
  - intros c Hc. rewrite H3, P by now apply Hin. destruct (in_dec (list_eq_dec Z.eq_dec) c _) as [|N]; [reflexivity|]. exfalso. now apply N, K.
  - intros Hr c Hc. rewrite H3, P by exact Hc. rewrite (Hgg Hr). destruct (in_dec (list_eq_dec Z.eq_dec) c _); [now left|now right].
Qed.

(** Messages *)
Definition expected (k : wcall C E) : pmessage C := (streaks_of (k_region k), map (fun s => map (G (k_step k)) (streak_coords s)) (streaks_of (k_region k))).

Lemma outgoing_ok (k : wcall C E) g : report_ok t correct n dims G Edge k -> reach g -> (forall c, inr n (k_region k) c -> dg_get t false g c = Some (G (k_step k) c)) ->
  outgoing t g k = Some (expected k).
Proof.
  intros Hk Hr Hg. destruct (report_streaks k Hk) as (E1 & Hi & _ & K). unfold outgoing, expected. rewrite E1. cbn [obind].
  assert (Ks : forall s, In s (streaks_of (k_region k)) -> forall c, In c (streak_coords s) -> inr n (k_region k) c) by (intros s Hs c Hc; apply K, in_flat_map; exists s; now split).
  rewrite Forall_forall in Hi.
  assert (Q : forall ss, (forall s, In s ss -> In s (streaks_of (k_region k))) -> mapo (raw_read t g) ss = Some (map (fun s => map (G (k_step k)) (streak_coords s)) ss)).
  { induction ss as [|s ss IH]; intros Hss; [reflexivity|]. cbn [mapo map]. rewrite (get_inner g s (G (k_step k)) Hr (Hi s (Hss s (or_introl eq_refl)))).
    - cbn [obind]. rewrite IH; [reflexivity|intros; apply Hss; now right].
    - intros c Hc. apply Hg. eapply Ks; [apply Hss; now left|exact Hc]. }
  rewrite Q by auto. reflexivity.
Qed.

Lemma incoming_ok (k k' : wcall C E) g : report_ok t correct n dims G Edge k -> k_dims k' = dims -> reach g ->
  exists g', incoming t g k' (expected k) = Some g' /\ reach g' /\ g_edge (d_grid g') = g_edge (d_grid g) /\
    (forall c, inr n (k_region k) c -> dg_get t false g' c = Some (G (k_step k) c)) /\
    (forall c, in_grid dims c -> dg_get t false g' c = Some (G (k_step k) c) \/ dg_get t false g' c = dg_get t false g c).
Proof.
  intros Hk Hd Hr. pose proof Hk as (_ & _ & Hin & _). destruct (report_streaks k Hk) as (E1 & Hi & E2 & K). unfold incoming, expected. cbn [fst snd]. rewrite Hd, Hdims, E2, E1. cbn [obind].
  assert (Q : forall ss g, Forall inner ss -> reach g -> exists g', write_all t g ss (map (fun s => map (G (k_step k)) (streak_coords s)) ss) = Some g' /\
    put_cells (G (k_step k)) (flat_map streak_coords ss) g g').
  { induction ss as [|s ss IH]; intros g0 Hi0 Hr0; [exists g0; split; [reflexivity|now apply put_nil]|].
    inversion Hi0 as [|? ? H1 H2]; subst. cbn [write_all map flat_map]. unfold raw_write. rewrite inner_bounds by assumption.
    destruct (set_inner g0 s (G (k_step k)) Hr0 H1) as (g1 & -> & P1). cbn [obind]. destruct (IH g1 H2 (proj1 P1)) as (g2 & Ew & P2). exists g2. split; [exact Ew|]. eapply put_trans; eauto. }
  destruct (Q _ g Hi Hr) as (g' & E3 & R & Ee & P). exists g'. split; [exact E3|]. split; [exact R|]. split; [exact Ee|]. split.
  - intros c Hc. rewrite P by now apply Hin. destruct (in_dec (list_eq_dec Z.eq_dec) c _) as [|N]; [reflexivity|]. exfalso. now apply N, K.
  - intros c Hc. rewrite P by exact Hc. destruct (in_dec (list_eq_dec Z.eq_dec) c _); [now left|now right].
Qed.
End Grids.
