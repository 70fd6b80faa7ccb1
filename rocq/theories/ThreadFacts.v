(** Facts on threads: in whatever order the cells are updated. *)
From Coq Require Import Permutation.
From Verif Require Import Base ListFacts RegionSpec RegionModel RegionRep RegionIterModel RegionStreaks RegionOpsModel RegionOps RegionGeometry HaloSpec
  RegionHist CoordModel CoordSpec CoordFacts TopologyFacts PatchModel ConfigFacts GridModel GridSpec GridFacts DisplacedFacts GridReach SellFacts
  StencilModel StencilSpec StencilFacts StencilProps UpdateModel UpdateSpec UpdateFacts UpdateProps PartitionManagerModel CheckerFacts OffsetFacts StripingFacts CollectFacts AdapterModel CudaSpec CudaFacts
  ThreadModel ThreadSpec ThreadPlanes.

(** ** Tasks *)

Lemma flat_concat {A B} (f : A -> list B) (l : list (list A)) : flat_map f (concat l) = concat (map (flat_map f) l).
Proof. induction l as [|a l IH]; [reflexivity|]. cbn. now rewrite flat_map_app, IH. Qed.

Definition covers (n : nat) (ss ps : list streak) : Prop :=
  flat_map streak_coords ps = flat_map streak_coords ss /\ Forall (fun s => length (s_pre s) = n /\ s_x s < s_e s) ps.

Lemma concat_singles {A} (l : list A) : concat (map (fun s => [s]) l) = l.
Proof. induction l as [|a l IH]; [reflexivity|]. cbn. now rewrite IH. Qed.

Lemma pieces_spec n gran r ss : rvalid n r -> reg_streaks r = Some ss -> 1 <= gran -> Forall (fun s => 0 <= s_x s) ss ->
  exists ts, pieces gran r = Some ts /\ covers n ss (concat ts).
Proof.
  intros Hv E Hg Hx. destruct (streaks_valid n r Hv) as (l & [_ Hok] & _ & El & _). assert (l = ss) as -> by congruence.
  assert (Hpos : Forall (fun s => 0 <= s_x s < s_e s) ss) by (rewrite Forall_forall in *; intros s Hs; specialize (Hok s Hs); specialize (Hx s Hs); cbn in *; lia).
  destruct (cut_streaks_spec gran Hg ss Hpos) as (ps & E0 & Hcov & Hf). unfold pieces. rewrite E. cbn [obind]. rewrite E0. cbn [option_map]. eexists. split; [reflexivity|].
  rewrite concat_singles. split; [exact Hcov|]. rewrite Forall_forall in *. intros p Hin. destruct (Hf p Hin) as [(s & Hs & ->) H]. split; [apply (Hok s Hs)|lia].
Qed.

Lemma planes_cover n r ss : rvalid n r -> reg_streaks r = Some ss -> covers n ss ss.
Proof. intros Hv E. destruct (streaks_valid n r Hv) as (l & [_ Hok] & _ & El & _). assert (l = ss) as -> by congruence. split; [reflexivity|exact Hok]. Qed.

Lemma tasks_spec n bd cs th r ss : rvalid n r -> reg_streaks r = Some ss -> (c_fine cs = true -> 1 <= th_gran th /\ Forall (fun s => 0 <= s_x s) ss) ->
  exists ts, tasks bd cs th r = Some ts /\ covers n ss (concat ts).
Proof.
  intros Hv E Hf. destruct (planes_eq n r ss Hv E) as [Ep Ec]. pose proof (planes_cover n r ss Hv E) as Hcov.
  assert (Hp : exists ts, planes r = Some ts /\ covers n ss (concat ts)) by (eexists; split; [exact Ep|now rewrite Ec]).
  assert (Hq : c_fine cs = true -> exists ts, pieces (th_gran th) r = Some ts /\ covers n ss (concat ts)).
  { intros H. destruct (Hf H) as [H1 H2]. now apply pieces_spec. }
  unfold tasks. destruct (with_threads bd && c_openmp cs && negb (th_openmp th)).
  - destruct (c_static cs); [exact Hp|]. destruct (c_fine cs); [now apply Hq|exact Hp].
  - destruct (with_hpx bd && c_hpx cs && negb (th_hpx th)).
    + destruct (c_fine cs); [now apply Hq|]. cbn [negb]. destruct (plane_iter n r ss Hv E 0) as (s & Es & _). pose proof (chain_eq n r ss Hv E (reg_num_planes r) 0 _ Es) as Ech.
      unfold reg_plane in Es. cbn [Nat.eqb] in Es. rewrite Es. cbn [obind]. rewrite Ech. eexists. split; [reflexivity|now rewrite Ec].
    + rewrite E. cbn [option_map]. eexists. split; [reflexivity|]. cbn [concat]. now rewrite app_nil_r.
Qed.

(** ** Actions *)

Definition cell_streak (a : act) : streak := mkStreak (s_pre (fst a)) (s_x (fst a) + snd a) (s_x (fst a) + snd a + 1).

Lemma cell_coords a : streak_coords (cell_streak a) = [act_coord a].
Proof. unfold streak_coords, cell_streak, act_coord. cbn [s_pre s_x s_e]. rewrite (zrange_cons (s_x (fst a) + snd a)) by lia. rewrite zrange_nil by lia. reflexivity. Qed.

Lemma cells_coords l : flat_map streak_coords (map cell_streak l) = map act_coord l.
Proof. induction l as [|a l IH]; [reflexivity|]. cbn [map flat_map]. rewrite cell_coords, IH. reflexivity. Qed.

Lemma acts_coords s : map act_coord (streak_acts s) = streak_coords s.
Proof.
  unfold streak_acts, streak_coords, act_coord. rewrite map_map. cbn [fst snd].
  assert (H : forall m x y, y - x = Z.of_nat m -> map (fun k => s_pre s ++ [s_x s + k]) (zrange x y) = map (fun z => s_pre s ++ [z]) (zrange (s_x s + x) (s_x s + y))).
  { induction m as [|m IH]; intros x y Hxy; [now rewrite !zrange_nil by lia|]. rewrite (zrange_cons x y) by lia. rewrite (zrange_cons (s_x s + x)) by lia. cbn [map]. f_equal.
    rewrite IH by lia. do 2 f_equal. lia. }
  destruct (Z.le_gt_cases (s_x s) (s_e s)) as [Hle|Hgt].
  - rewrite (H (Z.to_nat (s_e s - s_x s))) by lia. f_equal. f_equal; lia.
  - now rewrite !zrange_nil by lia.
Qed.

Lemma flat_acts_coords l : map act_coord (flat_map streak_acts l) = flat_map streak_coords l.
Proof. induction l as [|s l IH]; [reflexivity|]. cbn [flat_map]. now rewrite map_app, acts_coords, IH. Qed.

Lemma work_concat ts : concat (work ts) = flat_map streak_acts (concat ts).
Proof. unfold work. now rewrite flat_concat. Qed.

(** Acts which are part of a given list of Streaks. *)
Definition act_ok (n : nat) (a : act) : Prop := length (s_pre (fst a)) = n /\ 0 <= snd a < s_e (fst a) - s_x (fst a).

Lemma streak_acts_ok n s : length (s_pre s) = n -> Forall (act_ok n) (streak_acts s).
Proof. intros Hp. apply Forall_forall. intros a Ha. unfold streak_acts in Ha. apply in_map_iff in Ha. destruct Ha as (k & <- & Hk). apply zrange_in in Hk. split; [exact Hp|exact Hk]. Qed.

Lemma order_facts n r ss ts order : rvalid n r -> reg_streaks r = Some ss -> covers n ss (concat ts) -> interleaves (work ts) order ->
  Forall (act_ok n) order /\ NoDup (map act_coord order) /\ (forall c, In c (map act_coord order) <-> inr n r c) /\
  (forall a, In a order -> In (fst a) (concat ts)).
Proof.
  intros Hv E [Hc Hf] Hi. apply interleaves_perm in Hi. rewrite work_concat in Hi.
  destruct (region_coords_nodup n r Hv) as (cs & Ecs & Hin & Hnd). unfold region_coords in Ecs. rewrite E in Ecs. cbn [option_map] in Ecs.
  assert (cs = flat_map streak_coords ss) as -> by congruence.
  pose proof (Permutation_map act_coord Hi) as Hp. rewrite flat_acts_coords, Hc in Hp.
  split; [|split; [now apply (Permutation_NoDup Hp)|split]].
  - apply (Permutation_Forall Hi). apply Forall_flat_map. apply (Forall_impl _ (fun s => fun H : length (s_pre s) = n /\ s_x s < s_e s => streak_acts_ok n s (proj1 H)) Hf).
  - intros c. rewrite <- Hin. split; apply Permutation_in; [now apply Permutation_sym|exact Hp].
  - intros a Ha. apply (Permutation_in _ (Permutation_sym Hi)) in Ha. apply in_flat_map in Ha. destruct Ha as (s & Hs & Ha). unfold streak_acts in Ha. apply in_map_iff in Ha. destruct Ha as (k & <- & _). exact Hs.
Qed.

Lemma van_act_body {C} st (upd : list C -> C -> C) old loc locN soff toff n a g : length (s_pre (fst a)) = n -> length soff = S n -> length toff = S n ->
  van_act st upd old loc locN soff toff a g = van_body st upd old loc locN soff toff (cell_streak a) g.
Proof.
  intros Hp Hs Ht. unfold van_act, van_body. destruct (move_parts n (fst a) soff Hp Hs) as [E1 _]. destruct (move_parts n (fst a) toff Hp Ht) as [_ E2].
  destruct (move_parts n (cell_streak a) soff Hp Hs) as [E3 _]. destruct (move_parts n (cell_streak a) toff Hp Ht) as [_ E4]. cbn [cell_streak s_pre s_x s_e] in E3, E4.
  rewrite E1, E2, E3, E4. cbn [s_pre s_x s_e]. rewrite !removelast_last, !last_last.
  replace (Z.to_nat (s_x (fst a) + snd a + 1 + last soff 0 - (s_x (fst a) + snd a + last soff 0))) with 1%nat by lia. f_equal; lia.
Qed.

(** The path for fixed coordinates, cell by cell. *)
Lemma lp_act_van C st upd t correct b topo (d : dgrid C) cN bN topoN (dn : dgrid C) a toff : line_stencil st -> st_dim st = length t ->
  setup_ok t correct b topo -> d_org d = b_origin b -> d_topo d = topo -> g_dim (d_grid d) = b_dim b ->
  setup_ok t cN bN topoN -> d_org dn = b_origin bN -> d_topo dn = topoN -> g_dim (d_grid dn) = b_dim bN ->
  act_ok (length t - 1) a -> length toff = length t ->
  Forall (in_box b) (streak_coords (fst a)) -> Forall (fun c => in_box bN (zadd c toff)) (streak_coords (fst a)) ->
  forall g, lp_act st upd t (d_grid d) (dg_loc t correct d) b (dg_loc t cN dn) (zeros (b_dim b)) toff a g =
            van_act st upd (d_grid d) (dg_loc t correct d) (dg_loc t cN dn) (zeros (b_dim b)) toff a g.
Proof.
  intros Hst Hdim Hs R1 R2 R3 HsN S1 S2 S3 [Hp Hk] Hlt Hin HinN g. destruct a as [s k]. cbn [fst snd] in *. assert (Hx : s_x s < s_e s) by lia.
  assert (H3 : (1 <= length t <= 3)%nat) by (destruct Hst as (_ & H & _); rewrite <- Hdim; exact H).
  pose proof Hs as (_ & _ & Hld & _). assert (Hz : length (zeros (b_dim b)) = S (length t - 1)) by (unfold zeros; rewrite map_length; lia).
  destruct (move_parts (length t - 1) s toff Hp ltac:(lia)) as [_ Et].
  assert (Es : move_streak s (zeros (b_dim b)) = s).
  { destruct (move_parts (length t - 1) s (zeros (b_dim b)) Hp Hz) as [-> _]. destruct s as [pre x e]. cbn [s_pre s_x s_e] in *.
    assert (Hzz : forall l pre, length pre = (length l - 1)%nat -> zadd pre (removelast (zeros l)) = pre).
    { induction l as [|y l IH]; intros pre' H; [destruct pre'; [reflexivity|discriminate]|]. destruct l as [|z l]; [destruct pre'; [reflexivity|discriminate]|].
      destruct pre' as [|u pre']; [discriminate|]. change (removelast (zeros (y :: z :: l))) with (0 :: removelast (zeros (z :: l))). cbn [zadd]. rewrite IH by (cbn in *; lia). f_equal. lia. }
    assert (Hlz : forall l, last (zeros l) 0 = 0) by (induction l as [|y [|z l] IH]; [reflexivity|reflexivity|exact IH]).
    rewrite Hzz by lia. rewrite Hlz. f_equal; lia. }
  unfold lp_act, van_act. cbn [fst snd]. rewrite Es, Et. rewrite removelast_last, last_last.
  destruct (lp_assembled st Hst t correct b topo Hs Hdim d R1 R2 R3 s Hx Hp Hin) as (ps & E & _). rewrite E. cbn [obind].
  destruct (snoc_parts toff (length t - 1) 0 ltac:(lia)) as [Eto Lto].
  assert (HtN : forall x, s_x s <= x < s_e s -> in_box bN (zadd (s_pre s) (removelast toff) ++ [x + last toff 0])).
  { intros x Hxx. rewrite Forall_forall in HinN. specialize (HinN (s_pre s ++ [x])). rewrite Eto in HinN. rewrite zadd_snoc in HinN by lia. apply HinN.
    unfold streak_coords. apply in_map_iff. exists x. split; [reflexivity|]. now apply zrange_in. }
  destruct (row_target t cN bN topoN dn (zadd (s_pre s) (removelast toff)) HsN S1 S2 S3 ltac:(rewrite zadd_length'; lia) (s_x s + last toff 0) (HtN (s_x s) ltac:(lia))) as (base & Hbase).
  rewrite (Hbase _ (HtN (s_x s) ltac:(lia))). apply (lp_loop_eq st Hst t correct b topo Hs Hdim d R1 R2 R3 s Hx Hp Hin upd (dg_loc t cN dn) (zadd (s_pre s) (removelast toff)) (s_x s + last toff 0)); [|exact E|lia|lia|].
  - intros j Hj. replace (s_x s + last toff 0 + j) with (s_x s + j + last toff 0) by lia. rewrite Hbase by (apply HtN; lia). f_equal. lia.
  - intros j Hj. assert (j = k) as -> by lia. split; reflexivity.
Qed.

Lemma run_acts_ext {C} (f h : act -> vgrid C -> option (vgrid C)) l : (forall a g, In a l -> f a g = h a g) -> forall g, run_acts f l g = run_acts h l g.
Proof.
  induction l as [|a l IH]; intros H g; [reflexivity|]. cbn [run_acts]. rewrite H by now left. destruct (h a g); [|reflexivity]. cbn [obind]. apply IH. intros; apply H; now right.
Qed.

Lemma run_acts_bodies {C} st (upd : list C -> C -> C) old loc locN soff toff n l : Forall (act_ok n) l -> length soff = S n -> length toff = S n ->
  forall g, run_acts (van_act st upd old loc locN soff toff) l g = run_bodies (van_body st upd old loc locN soff toff) (map cell_streak l) g.
Proof.
  intros Hf Hs Ht. induction Hf as [|a l [Ha _] _ IH]; intros g; [reflexivity|]. cbn [run_acts map run_bodies]. rewrite (van_act_body _ _ _ _ _ _ _ n) by assumption.
  destruct (van_body _ _ _ _ _ _ _ _ g); [|reflexivity]. cbn [obind]. apply IH.
Qed.

Lemma cell_streaks_ok n l : Forall (act_ok n) l -> Forall (fun s => length (s_pre s) = n /\ s_x s < s_e s) (map cell_streak l).
Proof. intros H. apply Forall_map. apply (Forall_impl _ (fun a => fun Ha : act_ok n a => conj (proj1 Ha) (ltac:(cbn; lia) : s_x (cell_streak a) < s_e (cell_streak a))) H). Qed.

(** ** The whole grid as a region *)

Lemma same_boxes : forall dim o m, allpos dim -> length o = length dim -> length m = length dim ->
  (forall c, inside o m c <-> inside (zeros dim) dim c) -> o = zeros dim /\ m = dim.
Proof.
  induction dim as [|n dim IH]; intros [|x o] [|y m] Hp Ho Hm H; try discriminate; [split; reflexivity|]. inversion Hp as [|? ? Hn Hp']; subst.
  assert (Hz : inside (zeros dim) dim (zeros dim)) by (clear - Hp'; induction Hp' as [|k l Hk _ IH]; [exact I|]; cbn; split; [lia|exact IH]).
  assert (Hall : forall z c, (x <= z < x + y /\ inside o m c) <-> (0 <= z < n /\ inside (zeros dim) dim c)).
  { intros z c. specialize (H (z :: c)). cbn [inside zeros map] in H. fold (zeros dim) in H. rewrite Z.add_0_l in H. exact H. }
  assert (Hom : inside o m (zeros dim)) by (apply (Hall 0 (zeros dim)); split; [lia|exact Hz]).
  assert (Hx : forall z, x <= z < x + y <-> 0 <= z < n) by (intros z; specialize (Hall z (zeros dim)); tauto).
  assert (Ht : forall c, inside o m c <-> inside (zeros dim) dim c).
  { intros c. specialize (Hall 0 c). specialize (Hx 0). split; intros Hc; apply Hall; (split; [apply Hx; lia || lia|exact Hc]). }
  destruct (IH o m Hp' ltac:(cbn in Ho; lia) ltac:(cbn in Hm; lia) Ht) as [-> ->]. pose proof (Hx 0) as H0. pose proof (Hx (n - 1)) as H1. pose proof (Hx (-1)) as H2. pose proof (Hx n) as H3.
  cbn [zeros map]. split; f_equal; lia.
Qed.

Lemma in_box_grid dim c : length c = length dim -> in_box (mkBox (zeros dim) dim) c <-> in_grid dim c.
Proof.
  unfold in_box. cbn [b_origin b_dim]. revert c. induction dim as [|n dim IH]; intros [|x c] H; try discriminate; [split; intros _; exact I|].
  cbn [zeros map inside]. fold (zeros dim). rewrite in_grid_cons, (IH c) by (cbn in H; lia). rewrite Z.add_0_l. reflexivity.
Qed.

Lemma sim_area_spec dim n : length dim = S n -> allpos dim ->
  exists area, sim_area dim = Some area /\ rvalid n area /\ (forall c, inr n area c <-> in_grid dim c) /\ bounding_box area = Some (mkBox (zeros dim) dim).
Proof.
  intros Hl Hp. assert (Lz : length (zeros dim) = S n) by (unfold zeros; now rewrite map_length).
  assert (Hrr : rows_regular (mkBox (zeros dim) dim)).
  { unfold rows_regular. cbn [b_dim]. destruct dim as [|a [|b dim]]; [discriminate|exact I|]. inversion Hp as [|? ? Ha Hp']; subst. inversion Hp'; subst.
    split; [lia|]. apply Forall_forall. intros k Hk. rewrite Forall_forall in Hp'. apply Hp'. rewrite (app_removelast_last 0 (l := b :: dim)) by discriminate.
    apply in_or_app. now left. }
  destruct (regular_streakable (S n) (mkBox (zeros dim) dim) Lz Hl Hrr) as [Hs Hff].
  assert (Hfu : prod (b_dim (origins_box (mkBox (zeros dim) dim))) <= Z.of_nat (Z.to_nat (prod dim))).
  { pose proof (prod_le_removelast dim Hp) as H0. cbn [b_dim] in *. lia. }
  destruct (insert_box_valid n (reg_empty (S n)) (mkBox (zeros dim) dim) (Z.to_nat (prod dim)) (rvalid_empty n) Lz Hl Hs ltac:(lia)) as (r & H1 & H2 & H3).
  exists r. split; [unfold sim_area; now rewrite Hl|]. split; [exact H2|].
  assert (Hin : forall c, inr n r c <-> in_grid dim c).
  { intros c. split.
    - intros [Hc Hr]. apply H3 in Hr; [|exact Hc]. destruct Hr as [Hr|Hr]; [exfalso; eapply rin_empty; eauto|]. apply in_box_grid; [congruence|exact Hr].
    - intros Hc. pose proof (in_grid_length _ _ Hc) as Hlc. split; [congruence|]. apply H3; [congruence|]. right. now apply in_box_grid. }
  split; [exact Hin|]. destruct (geometry_valid n r H2) as (bb & cs & E & _ & _ & (L1 & L2 & Hb & Hmin) & _). unfold bounding_box. rewrite E. cbn [option_map fst]. f_equal.
  destruct bb as [o m]. cbn [b_origin b_dim] in L1, L2. destruct (same_boxes dim o m Hp ltac:(lia) ltac:(lia)) as [-> ->]; [|reflexivity]. intros c. split; intros Hc.
  - apply (Hmin (mkBox (zeros dim) dim) Lz Hl); [|exact Hc]. intros c' Hc'. apply in_box_grid; [destruct Hc'; congruence|now apply Hin].
  - apply (Hb c). apply Hin. apply in_box_grid; [|exact Hc]. pose proof (inside_length _ _ _ Hc). unfold zeros in *. rewrite map_length in *. lia.
Qed.
