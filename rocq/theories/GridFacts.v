(** Facts on grids which store their cells in a vector. *)
From Verif Require Import Base ListFacts RegionSpec RegionModel RegionRep RegionIterModel RegionStreaks RegionOpsModel
  CoordModel CoordSpec CoordFacts TopologyFacts GridModel GridSpec.

Lemma close_one dim : forall c, close_by dim c <-> one_period dim c.
Proof. induction dim as [|n dim IH]; intros [|x c]; cbn; try rewrite IH; tauto. Qed.

Lemma close_length dim : forall c, close_by dim c -> length c = length dim.
Proof. induction dim as [|n dim IH]; intros [|x c] H; cbn in *; try tauto. f_equal. apply IH. tauto. Qed.

Lemma in_grid_close dim c : allpos dim -> in_grid dim c -> close_by dim c.
Proof. intros Hp Hc. apply close_one. now apply grid_one_period. Qed.

Lemma in_grid_length dim c : in_grid dim c -> length c = length dim.
Proof. intros H. apply inside_length in H. rewrite map_length in H. lia. Qed.

Lemma denotes_wraps t : forall dim c c', length t = length dim -> allpos dim ->
  (denotes t dim c = Some c' <-> wraps_to t dim c c').
Proof.
  induction t as [|w t IH]; intros [|n dim] [|x c] c' Hl Hp; try discriminate.
  - cbn. destruct c'; split; intros H; try congruence; try tauto.
  - cbn. split; [discriminate|]. destruct c'; tauto.
  - cbn. split; [discriminate|]. destruct c'; tauto.
  - injection Hl as Hl. apply Forall_cons_iff' in Hp. destruct Hp as [Hn Hp]. cbn [denotes].
    destruct c' as [|x' c'].
    + split; [|cbn; tauto]. destruct (denotes t dim c); [|discriminate]. destruct w; [discriminate|].
      destruct (_ && _); discriminate.
    + cbn [wraps_to]. rewrite <- (IH dim c c' Hl Hp). destruct (denotes t dim c) as [r|]; [|split; [discriminate|intros (_ & _ & E); discriminate]].
      destruct w.
      * split.
        -- intros E. injection E as <- <-. split; [apply Z.mod_pos_bound; lia|]. split; [|reflexivity].
           exists (x / n). pose proof (Z.div_mod x n). lia.
        -- intros (H1 & (k & ->) & E). injection E as ->. f_equal. f_equal. rewrite Z.mod_add by lia. apply Z.mod_small. lia.
      * destruct ((0 <=? x) && (x <? n)) eqn:Ex.
        -- split.
           ++ intros E. injection E as <- <-. split; [lia|]. auto.
           ++ intros (H1 & -> & E). now injection E as ->.
        -- split; [discriminate|]. intros (H1 & -> & _). lia.
Qed.

Lemma denotes_self t dim c : length t = length dim -> allpos dim -> in_grid dim c -> denotes t dim c = Some c.
Proof. intros Hl Hp Hc. apply denotes_wraps; auto. now apply grid_wraps_self. Qed.

Lemma denotes_oob t dim c : length t = length dim -> allpos dim -> out_of_bounds t c dim = true -> denotes t dim c = None.
Proof.
  intros Hl Hp Ho. destruct (denotes t dim c) as [c'|] eqn:E; [|reflexivity].
  apply denotes_wraps in E; auto. now apply out_of_bounds_spec with (c' := c') in Ho.
Qed.

Lemma denotes_in t dim c : length t = length dim -> allpos dim -> close_by dim c -> out_of_bounds t c dim = false ->
  denotes t dim c = Some (normalize_edges c dim) /\ in_grid dim (normalize_edges c dim).
Proof.
  intros Hl Hp Hc Ho. pose proof (normalize_edges_spec t dim c Hl Hp (proj1 (close_one dim c) Hc) Ho) as H.
  split; [now apply denotes_wraps|]. now apply wraps_to_grid in H.
Qed.

Lemma vec_put_spec {C} (l : list C) : forall i v, (i < length l)%nat ->
  exists l', vec_put l i v = Some l' /\ length l' = length l /\
    forall j, nth_error l' j = if Nat.eqb i j then Some v else nth_error l j.
Proof.
  induction l as [|x l IH]; intros [|i] v Hi; cbn [length vec_put] in *; try lia.
  - eexists. split; [reflexivity|]. split; [reflexivity|]. intros [|j]; reflexivity.
  - destruct (IH i v) as (l' & E & Hl & H); [lia|]. rewrite E. cbn. eexists. split; [reflexivity|].
    split; [cbn; lia|]. intros [|j]; [reflexivity|]. cbn. apply H.
Qed.

Lemma vec_set_spec {C} (l : list C) i v : 0 <= i < Z.of_nat (length l) ->
  exists l', vec_set l i v = Some l' /\ length l' = length l /\
    forall j, vec_get l' j = if i =? j then Some v else vec_get l j.
Proof.
  intros Hi. unfold vec_set. destruct (Z.ltb_spec i 0); [lia|]. destruct (vec_put_spec l (Z.to_nat i) v) as (l' & E & Hl & H'); [lia|].
  exists l'. split; [exact E|]. split; [exact Hl|]. intros j. unfold vec_get. destruct (Z.ltb_spec j 0).
  - destruct (Z.eqb_spec i j); [lia|reflexivity].
  - rewrite H'. destruct (Z.eqb_spec i j); destruct (Nat.eqb_spec (Z.to_nat i) (Z.to_nat j)); auto; lia.
Qed.

Lemma vec_get_repeat {C} (x : C) n i : 0 <= i < Z.of_nat n -> vec_get (repeat x n) i = Some x.
Proof.
  intros Hi. unfold vec_get. destruct (Z.ltb_spec i 0); [lia|]. rewrite nth_error_repeat; [reflexivity|lia].
Qed.

Lemma to_index_snoc dp n pre x : length pre = length dp -> to_index (pre ++ [x]) (dp ++ [n]) = to_index pre dp * n + x.
Proof.
  revert pre. induction dp as [|m dp IH]; intros [|y pre] Hl; try discriminate; cbn [app to_index prod].
  - lia.
  - rewrite IH by (now injection Hl). rewrite prod_app1. ring.
Qed.

Lemma to_index_inj dim a b : allpos dim -> in_grid dim a -> in_grid dim b -> to_index a dim = to_index b dim -> a = b.
Proof. intros Hp Ha Hb E. rewrite <- (from_to dim Hp a Ha), <- (from_to dim Hp b Hb). now rewrite E. Qed.

(** ** Contents of a grid *)

Definition upd {C} (f : place -> C) (p : place) (v : C) : place -> C := fun q => if place_dec p q then v else f q.

Lemma last_written_cons {C} (f : place -> C) p v ws q : last_written f ((p, v) :: ws) q = last_written (upd f p v) ws q.
Proof. reflexivity. Qed.

Lemma last_written_app {C} (f : place -> C) a b q : last_written f (a ++ b) q = last_written (last_written f a) b q.
Proof. unfold last_written. apply fold_left_app. Qed.

Lemma last_written_ext {C} (f g : place -> C) ws : (forall q, f q = g q) -> forall q, last_written f ws q = last_written g ws q.
Proof. intros H q. unfold last_written. now rewrite H. Qed.

Lemma last_written_other {C} ws : forall (f : place -> C) q, (forall w, In w ws -> fst w <> q) -> last_written f ws q = f q.
Proof.
  induction ws as [|[p v] ws IH]; intros f q H; [reflexivity|]. rewrite last_written_cons, IH by (intros w Hw; apply H; now right).
  unfold upd. destruct (place_dec p q) as [E|E]; [|reflexivity]. exfalso. exact (H _ (or_introl eq_refl) E).
Qed.

Lemma last_written_at {C} ps : forall (f : place -> C) vs i p v, NoDup ps -> nth_error ps i = Some p -> nth_error vs i = Some v ->
  last_written f (combine ps vs) p = v.
Proof.
  induction ps as [|p0 ps IH]; intros f vs i p v Hn Hp Hv; [destruct i; discriminate|].
  inversion Hn as [|? ? Hnin Hn']; subst. destruct vs as [|v0 vs]; [destruct i; discriminate|]. cbn [combine]. rewrite last_written_cons.
  destruct i as [|i].
  - cbn in Hp, Hv. injection Hp as ->. injection Hv as ->. rewrite last_written_other.
    + unfold upd. destruct (place_dec p p); [reflexivity|congruence].
    + intros [q x] Hw E. apply in_combine_l in Hw. cbn in E. congruence.
  - cbn in Hp, Hv. eapply IH; eauto.
Qed.

Lemma oob_cube_inv t' : forall dm c, length t' = length dm ->
  out_of_bounds (cube (length c)) (zsub c (map (fun _ => 0) dm)) dm = false ->
  out_of_bounds t' c dm = false /\ (length c = length dm -> in_grid dm c).
Proof.
  induction t' as [|w t' IH]; intros [|n dm] [|x c] Hle H; try discriminate.
  - split; [reflexivity|]. intros _. exact Logic.I.
  - split; [reflexivity|discriminate].
  - split; [reflexivity|discriminate].
  - injection Hle as Hle. cbn [length cube repeat map zsub out_of_bounds negb andb] in H. apply orb_false_iff in H.
    destruct H as [H1 H2]. destruct (IH dm c Hle H2) as [I1 I2]. split.
    + cbn [out_of_bounds]. rewrite I1. destruct w; cbn; lia.
    + intros Hc. injection Hc as Hc. apply in_grid_cons. split; [lia|auto].
Qed.

Lemma streak_len dim s : (s_x s <= s_e s) -> Forall (close_by dim) (streak_coords s) ->
  s_x s = s_e s \/ length (s_pre s) = (length dim - 1)%nat.
Proof.
  intros Hx Hc. destruct (Z.eq_dec (s_x s) (s_e s)) as [|Hn]; [now left|]. right.
  unfold streak_coords in Hc. rewrite zrange_cons in Hc by lia. cbn [map] in Hc. inversion Hc as [|? ? H _]; subst.
  apply close_length in H. rewrite app_length in H. cbn in H. lia.
Qed.

Section Rep.
Context {C : Type} (t : topology) (dim : coord).
Context (Hl : length t = length dim) (Hp : allpos dim) (Hne : dim <> []).

(** The grid holds [f]. *)
Definition rep (g : vgrid C) (f : place -> C) : Prop :=
  g_dim g = dim /\ length (g_cells g) = Z.to_nat (prod dim) /\ g_edge g = f None /\
  forall c, in_grid dim c -> vec_get (g_cells g) (to_index c dim) = Some (f (Some c)).

Lemma rep_ext g f f' : rep g f -> (forall p, f p = f' p) -> rep g f'.
Proof using. intros (H1 & H2 & H3 & H4) H. split; [auto|]. split; [auto|]. split; [now rewrite <- H|]. intros c Hc. rewrite <- H. auto. Qed.

Lemma rep_make dflt edge : rep (grid_make dim dflt edge) (fresh dflt edge).
Proof using Hl Hp.
  split; [reflexivity|]. split; [apply repeat_length|]. split; [reflexivity|]. intros c Hc. cbn [grid_make g_cells].
  apply vec_get_repeat. pose proof (to_index_bound dim Hp c Hc). pose proof (prod_pos dim Hp). lia.
Qed.

Lemma rep_get g f c : rep g f -> close_by dim c -> grid_get t g c = Some (f (denotes t dim c)).
Proof using Hl Hp.
  intros (H1 & H2 & H3 & H4) Hc. unfold grid_get. rewrite H1. destruct (out_of_bounds t c dim) eqn:Eo.
  - rewrite (denotes_oob t dim c Hl Hp Eo). now rewrite H3.
  - destruct (denotes_in t dim c Hl Hp Hc Eo) as [-> Hi]. auto.
Qed.

Lemma rep_put g f c v : rep g f -> in_grid dim c ->
  exists l', vec_set (g_cells g) (to_index c dim) v = Some l' /\ rep (mkVGrid (g_dim g) l' (g_edge g)) (upd f (Some c) v).
Proof using Hl Hp.
  intros (H1 & H2 & H3 & H4) Hc. pose proof (to_index_bound dim Hp c Hc) as Hb.
  destruct (vec_set_spec (g_cells g) (to_index c dim) v) as (l' & E & Hl' & H); [lia|].
  exists l'. split; [exact E|]. split; [exact H1|]. split; [cbn; lia|]. split; [exact H3|].
  intros c' Hc'. cbn [g_cells]. rewrite H. unfold upd. destruct (place_dec (Some c) (Some c')) as [Ec|Ec].
  - injection Ec as ->. now rewrite Z.eqb_refl.
  - destruct (Z.eqb_spec (to_index c dim) (to_index c' dim)) as [Ei|]; [|auto].
    exfalso. apply Ec. f_equal. now apply (to_index_inj dim).
Qed.

Lemma rep_edge g f v : rep g f -> rep (grid_set_edge g v) (upd f None v).
Proof using.
  intros (H1 & H2 & H3 & H4). split; [exact H1|]. split; [exact H2|]. split; [reflexivity|]. intros c Hc. cbn. auto.
Qed.

Lemma rep_set g f c v : rep g f -> close_by dim c ->
  exists g', grid_set t g c v = Some g' /\ rep g' (upd f (denotes t dim c) v).
Proof using Hl Hp.
  intros Hr Hc. pose proof Hr as (H1 & _). unfold grid_set. rewrite H1. destruct (out_of_bounds t c dim) eqn:Eo.
  - rewrite (denotes_oob t dim c Hl Hp Eo). pose proof (rep_edge g f v Hr) as R. unfold grid_set_edge in R. rewrite H1 in R. eexists. split; [reflexivity|exact R].
  - destruct (denotes_in t dim c Hl Hp Hc Eo) as [-> Hi]. destruct (rep_put g f _ v Hr Hi) as (l' & E & H).
    rewrite H1 in H. rewrite E. eexists. split; [reflexivity|exact H].
Qed.

Lemma rep_get_cells g f cs : rep g f -> Forall (close_by dim) cs ->
  get_cells t g cs = Some (map (fun c => f (denotes t dim c)) cs).
Proof using Hl Hp.
  intros Hr. induction 1 as [|c cs Hc _ IH]; [reflexivity|]. cbn [get_cells map]. rewrite (rep_get g f c Hr Hc). cbn [obind].
  now rewrite IH.
Qed.

Lemma rep_set_cells cs : forall g f vs, rep g f -> Forall (close_by dim) cs -> (length cs <= length vs)%nat ->
  exists g', set_cells t g cs vs = Some g' /\ rep g' (last_written f (combine (map (denotes t dim) cs) vs)).
Proof using Hl Hp.
  induction cs as [|c cs IH]; intros g f vs Hr Hc Hv.
  - exists g. split; [reflexivity|exact Hr].
  - destruct vs as [|v vs]; [cbn in Hv; lia|]. inversion Hc as [|? ? Hc1 Hc2]; subst.
    destruct (rep_set g f c v Hr Hc1) as (g1 & E1 & R1). cbn [set_cells]. rewrite E1. cbn [obind].
    destruct (IH g1 _ vs R1 Hc2) as (g' & E & R); [cbn in Hv; lia|]. exists g'. split; [exact E|exact R].
Qed.

Lemma dim_snoc : exists dp n, dim = dp ++ [n].
Proof using Hne. exists (removelast dim), (last dim 0). now apply app_removelast_last. Qed.

Lemma fast_inside s : box_in_bounds_streak (mkBox (map (fun _ => 0) dim) dim) s = true ->
  out_of_bounds t (s_origin s) dim = false /\
  (length (s_origin s) = length dim -> forall x, s_x s <= x < s_e s -> in_grid dim (s_pre s ++ [x])).
Proof using Hl Hp Hne.
  unfold box_in_bounds_streak. cbn [b_origin b_dim]. intros H. apply andb_true_iff in H. destruct H as [H1 H2].
  apply negb_true_iff in H1. destruct (oob_cube_inv t dim (s_origin s) Hl H1) as [I1 I2].
  split; [exact I1|]. intros Hlen x Hx. specialize (I2 Hlen). destruct dim_snoc as (dp & n & E).
  rewrite E in *. rewrite last_last in H2. rewrite map_app in H2. cbn [map] in H2. rewrite last_last in H2.
  unfold s_origin in *. rewrite !app_length in Hlen. cbn in Hlen. unfold in_grid in *. rewrite map_app in *.
  apply inside_app in I2; [|now rewrite map_length|rewrite map_length; lia].
  apply inside_app; [now rewrite map_length|rewrite map_length; lia|]. destruct I2 as [I2 I3]. split; [exact I2|].
  cbn in *. split; [|exact Logic.I]. lia.
Qed.

Lemma rep_read g f pre e : rep g f -> length pre = (length dim - 1)%nat -> forall n x, n = Z.to_nat (e - x) ->
  (forall y, x <= y < e -> in_grid dim (pre ++ [y])) ->
  vec_read (g_cells g) (to_index (pre ++ [x]) dim) n = Some (map (fun y => f (denotes t dim (pre ++ [y]))) (zrange x e)).
Proof using Hl Hp Hne.
  intros Hr Hpre. induction n as [|n IH]; intros x Hn Hin.
  - rewrite zrange_nil by lia. reflexivity.
  - rewrite zrange_cons by lia. cbn [vec_read map]. pose proof (Hin x ltac:(lia)) as Hx.
    pose proof Hr as (_ & _ & _ & H4). rewrite (H4 _ Hx). cbn [obind].
    rewrite (denotes_self t dim _ Hl Hp Hx).
    assert (Ei : to_index (pre ++ [x]) dim + 1 = to_index (pre ++ [x + 1]) dim).
    { destruct dim_snoc as (dp & m & E). rewrite E in *. rewrite app_length in Hpre. cbn in Hpre.
      rewrite !to_index_snoc by lia. lia. }
    rewrite Ei, (IH (x + 1)); [reflexivity|lia|]. intros y Hy. apply Hin. lia.
Qed.

Lemma rep_get_streak g f s : rep g f -> s_x s <= s_e s -> Forall (close_by dim) (streak_coords s) ->
  grid_get_streak t g s = Some (map (fun c => f (denotes t dim c)) (streak_coords s)).
Proof using Hl Hp Hne.
  intros Hr Hx Hc. pose proof Hr as (H1 & _). unfold grid_get_streak, grid_box. rewrite H1.
  destruct (box_in_bounds_streak _ s) eqn:Eb; [|now apply rep_get_cells].
  destruct (fast_inside s Eb) as [Ho Hin]. rewrite Ho. destruct (Z.ltb_spec (s_e s) (s_x s)); [lia|].
  destruct (streak_len dim s Hx Hc) as [Ee|Hlen].
  - replace (Z.to_nat (s_e s - s_x s)) with O by lia. unfold streak_coords. rewrite zrange_nil by lia. reflexivity.
  - assert (Hlo : length (s_origin s) = length dim).
    { unfold s_origin. rewrite app_length. cbn. destruct dim; [congruence|cbn in *; lia]. }
    specialize (Hin Hlo). destruct (Z.eq_dec (s_x s) (s_e s)) as [Ee|Hn].
    + replace (Z.to_nat (s_e s - s_x s)) with O by lia. unfold streak_coords. rewrite zrange_nil by lia. reflexivity.
    + assert (En : normalize_edges (s_origin s) dim = s_origin s).
      { assert (Hg : in_grid dim (s_origin s)) by (apply Hin; lia).
        destruct (denotes_in t dim (s_origin s) Hl Hp (in_grid_close dim _ Hp Hg) Ho) as [Ed _].
        rewrite (denotes_self t dim _ Hl Hp Hg) in Ed. now injection Ed. }
      rewrite En. unfold s_origin. rewrite (rep_read g f (s_pre s) (s_e s) Hr Hlen _ (s_x s) eq_refl Hin).
      unfold streak_coords. now rewrite map_map.
Qed.

Lemma rep_write pre e : length pre = (length dim - 1)%nat -> forall n x g f vs, rep g f -> n = Z.to_nat (e - x) -> (n <= length vs)%nat ->
  (forall y, x <= y < e -> in_grid dim (pre ++ [y])) ->
  exists l', vec_write (g_cells g) (to_index (pre ++ [x]) dim) n vs = Some l' /\
    rep (mkVGrid (g_dim g) l' (g_edge g)) (last_written f (combine (map (denotes t dim) (map (fun y => pre ++ [y]) (zrange x e))) vs)).
Proof using Hl Hp Hne.
  intros Hpre. induction n as [|n IH]; intros x g f vs Hr Hn Hv Hin.
  - rewrite zrange_nil by lia. exists (g_cells g). split; [reflexivity|]. destruct g. exact Hr.
  - destruct vs as [|v vs]; [cbn in Hv; lia|]. rewrite zrange_cons by lia. cbn [vec_write map combine].
    pose proof (Hin x ltac:(lia)) as Hx. destruct (rep_put g f _ v Hr Hx) as (l1 & E1 & R1). rewrite E1. cbn [obind].
    assert (Ei : to_index (pre ++ [x]) dim + 1 = to_index (pre ++ [x + 1]) dim).
    { destruct dim_snoc as (dp & m & E). rewrite E in *. rewrite app_length in Hpre. cbn in Hpre.
      rewrite !to_index_snoc by lia. lia. }
    rewrite Ei. destruct (IH (x + 1) _ _ vs R1) as (l' & E' & R'); [lia|cbn in Hv; lia|intros y Hy; apply Hin; lia|].
    exists l'. split; [exact E'|]. rewrite (denotes_self t dim _ Hl Hp Hx). exact R'.
Qed.

Lemma rep_set_streak g f s vs : rep g f -> s_x s <= s_e s -> Forall (close_by dim) (streak_coords s) ->
  (length (streak_coords s) <= length vs)%nat ->
  exists g', grid_set_streak t g s vs = Some g' /\ rep g' (last_written f (combine (map (denotes t dim) (streak_coords s)) vs)).
Proof using Hl Hp Hne.
  intros Hr Hx Hc Hv. pose proof Hr as (H1 & _). unfold grid_set_streak, grid_box. rewrite H1.
  destruct (box_in_bounds_streak _ s) eqn:Eb; [|now apply rep_set_cells].
  destruct (fast_inside s Eb) as [Ho Hin]. rewrite Ho. destruct (Z.ltb_spec (s_e s) (s_x s)); [lia|].
  destruct (Z.eq_dec (s_x s) (s_e s)) as [Ee|Hn].
  - replace (Z.to_nat (s_e s - s_x s)) with O by lia. unfold streak_coords. rewrite zrange_nil by lia. cbn [vec_write option_map map combine].
    eexists. split; [reflexivity|]. destruct g. cbn in H1. subst. exact Hr.
  - destruct (streak_len dim s Hx Hc) as [Ee|Hlen]; [lia|].
    assert (Hlo : length (s_origin s) = length dim).
    { unfold s_origin. rewrite app_length. cbn. destruct dim; [congruence|cbn in *; lia]. }
    specialize (Hin Hlo).
    assert (En : normalize_edges (s_origin s) dim = s_origin s).
    { assert (Hg : in_grid dim (s_origin s)) by (apply Hin; lia).
      destruct (denotes_in t dim (s_origin s) Hl Hp (in_grid_close dim _ Hp Hg) Ho) as [Ed _].
      rewrite (denotes_self t dim _ Hl Hp Hg) in Ed. now injection Ed. }
    rewrite En. unfold s_origin.
    destruct (rep_write (s_pre s) (s_e s) Hlen _ (s_x s) g f vs Hr eq_refl) as (l' & E & R).
    { unfold streak_coords in Hv. rewrite map_length, zrange_length in Hv. exact Hv. }
    { exact Hin. }
    rewrite H1 in R. rewrite E. cbn [option_map]. eexists. split; [reflexivity|exact R].
Qed.

Lemma rep_op g f o : rep g f -> access_ok (close_by dim) (close_by dim) o ->
  exists g', grid_op t g o = Some g' /\ rep g' (last_written f (writes (denotes t dim) o)).
Proof using Hl Hp Hne.
  intros Hr Ho. destruct o as [c v|s vs|v]; cbn [grid_op writes access_ok] in *.
  - apply rep_set; auto.
  - destruct Ho as (H1 & H2 & H3). apply rep_set_streak; auto. lia.
  - eexists. split; [reflexivity|]. now apply rep_edge.
Qed.

Lemma rep_ops l : forall g f, rep g f -> Forall (access_ok (close_by dim) (close_by dim)) l ->
  exists g', grid_ops t g l = Some g' /\ rep g' (last_written f (flat_map (writes (denotes t dim)) l)).
Proof using Hl Hp Hne.
  induction l as [|o l IH]; intros g f Hr Hok; [exists g; now split|].
  inversion Hok as [|? ? H1 H2]; subst. destruct (rep_op g f o Hr H1) as (g1 & E1 & R1). cbn [grid_ops flat_map]. rewrite E1. cbn [obind].
  destruct (IH g1 _ R1 H2) as (g' & E & R). exists g'. split; [exact E|]. apply (rep_ext _ _ _ R). intros q. symmetry. apply last_written_app.
Qed.

(** ** Sequences of streaks *)

Definition streaks_fit (ss : list streak) : Prop :=
  Forall (fun s => s_x s <= s_e s /\ Forall (close_by dim) (streak_coords s)) ss.

Lemma rep_save_streaks g f ss : rep g f -> streaks_fit ss ->
  save_streaks t g ss = Some (map (fun c => f (denotes t dim c)) (flat_map streak_coords ss)).
Proof using Hl Hp Hne.
  intros Hr. induction 1 as [|s ss [H1 H2] _ IH]; [reflexivity|]. cbn [save_streaks flat_map].
  rewrite (rep_get_streak g f s Hr H1 H2). cbn [obind]. rewrite IH. cbn [option_map]. now rewrite map_app.
Qed.

Lemma streak_coords_length s : length (streak_coords s) = Z.to_nat (s_e s - s_x s).
Proof using. unfold streak_coords. now rewrite map_length, zrange_length. Qed.

Lemma combine_app_l {A B} (a b : list A) : forall v : list B,
  combine (a ++ b) v = combine a v ++ combine b (skipn (length a) v).
Proof using.
  induction a as [|x a IH]; intros v; [reflexivity|]. destruct v as [|y v]; cbn [app combine length skipn].
  - now destruct b.
  - now rewrite IH.
Qed.

Lemma rep_load_streaks ss : forall g f vs, rep g f -> streaks_fit ss -> (length (flat_map streak_coords ss) <= length vs)%nat ->
  exists g', load_streaks t g ss vs = Some g' /\ rep g' (last_written f (combine (map (denotes t dim) (flat_map streak_coords ss)) vs)).
Proof using Hl Hp Hne.
  induction ss as [|s ss IH]; intros g f vs Hr Hf Hv; [exists g; now split|].
  inversion Hf as [|? ? [H1 H2] H3]; subst. cbn [flat_map] in *. rewrite app_length in Hv.
  destruct (rep_set_streak g f s vs Hr H1 H2) as (g1 & E1 & R1); [lia|]. cbn [load_streaks]. rewrite E1. cbn [obind].
  rewrite <- streak_coords_length. destruct (IH g1 _ (skipn (length (streak_coords s)) vs) R1 H3) as (g' & E & R).
  { rewrite skipn_length. lia. }
  exists g'. split; [exact E|]. apply (rep_ext _ _ _ R). intros q. rewrite map_app, combine_app_l, map_length. symmetry. apply last_written_app.
Qed.
End Rep.
