(** Facts on the states grids can reach, and on comparing grids. *)
From Verif Require Import Base ListFacts RegionSpec RegionModel RegionRep RegionIterModel RegionStreaks RegionOpsModel HaloSpec
  CoordModel CoordSpec CoordFacts TopologyFacts PatchModel ConfigFacts GridModel GridSpec GridFacts DisplacedFacts.

Lemma dg_reach_rep {C} t correct b topo (d : dgrid C) : setup_ok t correct b topo -> dg_reach t correct b topo d ->
  exists f, drep b topo d f.
Proof.
  intros Hs. induction 1 as [dflt edge|d o d' Hr [f Hf] Ho E|d n r off vs d' Hr [f Hf] Ht Hv Ho Htr E Hlen].
  - exists (fresh dflt edge). now apply drep_make with t correct.
  - destruct (drep_op t correct b topo Hs d f o Hf Ho) as (d2 & E2 & R). rewrite E in E2. injection E2 as <-. eauto.
  - destruct (region_coords_spec n r Hv) as (cs & Ecs & _).
    destruct (drep_load t correct b topo Hs n Ht r Hv off Ho d f vs cs Hf Htr Ecs (Hlen cs Ecs)) as (d2 & E2 & R).
    rewrite E in E2. injection E2 as <-. eauto.
Qed.

(** A Grid is a DisplacedGrid at the origin. *)
Definition zeros (dim : coord) : coord := map (fun _ => 0) dim.

Lemma zsub_zeros dim : forall c, length c = length dim -> zsub c (zeros dim) = c.
Proof. induction dim as [|n dim IH]; intros [|x c] H; try discriminate; cbn; [reflexivity|]. rewrite Z.sub_0_r. f_equal. apply IH. cbn in H. lia. Qed.

Lemma grid_setup t dim : dim <> [] -> length t = length dim -> allpos dim -> setup_ok t false (mkBox (zeros dim) dim) dim.
Proof.
  intros Hn Hl Hp. unfold setup_ok, zeros. cbn. rewrite map_length. repeat split; auto; [|discriminate]. intros ->. destruct dim; [congruence|discriminate].
Qed.

Lemma grid_save_displaced {C} t dim (g : vgrid C) r off : length off = length dim ->
  grid_save t g r off = dg_save t false (mkDGrid g (zeros dim) dim) r off.
Proof.
  intros H. unfold grid_save, dg_save. cbn [d_topo d_org d_grid]. rewrite zsub_zeros by exact H. unfold norm_streaks_off, reg_streaks_off.
  destruct (it_begin r off 0) as [it|]; [|reflexivity]. rewrite nit_run_false. now destruct it.
Qed.

Lemma grid_load_displaced {C} t dim (g : vgrid C) r off vs : length off = length dim ->
  dg_load t false (mkDGrid g (zeros dim) dim) r off vs = option_map (fun g' => mkDGrid g' (zeros dim) dim) (grid_load t g r off vs).
Proof.
  intros H. unfold grid_load, dg_load. cbn [d_topo d_org d_grid]. rewrite zsub_zeros by exact H. unfold norm_streaks_off, reg_streaks_off.
  destruct (it_begin r off 0) as [it|]; [|reflexivity]. rewrite nit_run_false. destruct it. unfold norm_iter, norm_streak. cbn.
  destruct (it_run _ _ _ _ _ _) as [ss|]; [|reflexivity]. cbn [obind]. destruct (load_streaks t g ss vs); reflexivity.
Qed.

Lemma grid_transfer_ok t dim (R : coord -> Prop) off : (forall c, R c -> in_grid dim (zadd c off)) -> transfer_ok t false (mkBox (zeros dim) dim) dim R off.
Proof. intros H c Hc. apply (H c Hc). Qed.

Lemma grid_reach_rep {C} t dim (g : vgrid C) : dim <> [] -> length t = length dim -> allpos dim -> grid_reach t dim g ->
  exists f, rep dim g f.
Proof.
  intros Hn Hl Hp. induction 1 as [dflt edge|g o g' Hr [f Hf] Ho E|g n r off vs g' Hr [f Hf] Ht Hv Ho Htr E Hlen].
  - exists (fresh dflt edge). now apply rep_make with t.
  - destruct (rep_op t dim Hl Hp Hn g f o Hf Ho) as (g2 & E2 & R). rewrite E in E2. injection E2 as <-. eauto.
  - destruct (region_coords_spec n r Hv) as (cs & Ecs & _).
    pose proof (grid_setup t dim Hn Hl Hp) as Hs.
    destruct (drep_load t false _ dim Hs n Ht r Hv off Ho (mkDGrid g (zeros dim) dim) f vs cs) as (d2 & E2 & R); auto.
    + split; [reflexivity|]. split; [reflexivity|exact Hf].
    + rewrite grid_load_displaced, E in E2 by lia. cbn in E2. injection E2 as <-. destruct R as (_ & _ & R). cbn in R. eauto.
Qed.

Lemma last_written_map {C} (den : coord -> place) (g : coord -> C) f cs :
  NoDup cs -> (forall a c, In a cs -> In c cs -> den a = den c -> a = c) ->
  (forall c, In c cs -> last_written f (combine (map den cs) (map g cs)) (den c) = g c) /\
  (forall p, (forall c, In c cs -> den c <> p) -> last_written f (combine (map den cs) (map g cs)) p = f p).
Proof.
  intros Hnd Hinj. split.
  - intros c Hc. apply In_nth_error in Hc. destruct Hc as [i Hi]. apply last_written_at with i.
    + clear i c Hi. induction Hnd as [|c cs Hc Hnd IH]; [constructor|]. cbn. constructor.
      * intros Hi. apply in_map_iff in Hi. destruct Hi as (c' & E & Hc'). apply Hinj in E; [subst; contradiction|now right|now left].
      * apply IH. intros a a' Ha Ha'. apply Hinj; now right.
    + rewrite nth_error_map, Hi. reflexivity.
    + rewrite nth_error_map, Hi. reflexivity.
  - intros p Hp. apply last_written_other. intros [q v] Hw. apply in_combine_l in Hw. apply in_map_iff in Hw. destruct Hw as (c & <- & Hc). now apply Hp.
Qed.

(** ** Comparison *)

Section Cmp.
Context {C : Type} (ceq : C -> C -> bool) (Hceq : forall x y, ceq x y = true <-> x = y).

Lemma cells_eqb_spec a : forall b, cells_eqb ceq a b = true <-> a = b.
Proof using Hceq.
  induction a as [|x a IH]; intros [|y b]; cbn; try (split; congruence).
  rewrite andb_true_iff, Hceq, IH. split; [intros [-> ->]; reflexivity|intros E; injection E; auto].
Qed.

Lemma coord_eqb_spec (a : coord) : forall b, CoordModel.coord_eqb a b = true <-> a = b.
Proof using.
  induction a as [|x a IH]; intros [|y b]; cbn; try (split; congruence).
  rewrite andb_true_iff, Z.eqb_eq, IH. split; [intros [-> ->]; reflexivity|intros E; injection E; auto].
Qed.

Lemma box_eqb_spec a b : box_eqb a b = true <-> a = b.
Proof using.
  unfold box_eqb. rewrite andb_true_iff, !coord_eqb_spec. destruct a, b; cbn. split; [intros [-> ->]; reflexivity|intros E; injection E; auto].
Qed.

Lemma views_agree_spec a b cs : (forall c, In c cs -> v_get a c <> None /\ v_get b c <> None) ->
  exists r, views_agree ceq a b cs = Some r /\ (r = true <-> forall c, In c cs -> v_get a c = v_get b c).
Proof using Hceq.
  induction cs as [|c cs IH]; intros H; cbn [views_agree].
  - exists true. split; [reflexivity|]. split; [|auto]. intros _ c [].
  - destruct (H c (or_introl eq_refl)) as [Ha Hb]. destruct (v_get a c) as [x|] eqn:Ea; [|congruence]. destruct (v_get b c) as [y|] eqn:Eb; [|congruence].
    cbn [obind]. destruct (ceq x y) eqn:Ec.
    + destruct IH as (r & Er & Hr); [intros; apply H; now right|]. exists r. split; [exact Er|]. rewrite Hr. apply Hceq in Ec. subst y.
      split; [intros G c' [<-|Hc']; [congruence|auto]|intros G c' Hc'; apply G; now right].
    + exists false. split; [reflexivity|]. split; [discriminate|]. intros G. assert (x = y) by (specialize (G c (or_introl eq_refl)); congruence).
      apply Hceq in H0. congruence.
Qed.
End Cmp.

Lemma box_reg_pos n b : length (b_origin b) = S n -> length (b_dim b) = S n -> allpos (b_dim b) -> box_regular (S n) b.
Proof. intros H1 H2 H3. split; [exact H1|]. split; [exact H2|]. destruct (b_dim b); [discriminate|]. inversion H3; subst. split; [lia|assumption]. Qed.

(** The cells of a view inside of its box. *)
Lemma view_of_box {C} (v : gview C) : view_of v -> (exists n, box_regular (S n) (v_box v)) /\ allpos (b_dim (v_box v)) /\
  length (b_origin (v_box v)) = length (b_dim (v_box v)) /\ forall c, in_box (v_box v) c -> v_get v c <> None.
Proof.
  destruct 1 as [t dim g Hn Hl Hp Hr|t correct b topo d Hs Hr].
  - destruct (grid_reach_rep t dim g Hn Hl Hp Hr) as [f Hf]. pose proof Hf as (Hd & _). cbn. rewrite Hd. split; [|split; [exact Hp|split; [apply map_length|]]].
    + exists (length dim - 1)%nat. assert (length dim <> O) by (destruct dim; [congruence|discriminate]).
      apply box_reg_pos; cbn; rewrite ?map_length, ?Hd; auto; lia.
    + intros c Hc. rewrite (rep_get t dim Hl Hp g f c Hf); [discriminate|]. apply in_grid_close; [exact Hp|]. exact Hc.
  - destruct (dg_reach_rep t correct b topo d Hs Hr) as [f Hf]. pose proof Hf as (H1 & H2 & H3 & _).
    cbn [dg_view v_box v_get dg_box]. unfold dg_box. rewrite H1, H3. pose proof Hs as (Hn & Ho & Hld & Hp & Hle). split; [|split; [exact Hp|split; [cbn; lia|]]].
    + exists (length t - 1)%nat. assert (length t <> O) by (destruct t; [congruence|discriminate]). apply box_reg_pos; cbn; auto; lia.
    + intros c Hc. unfold in_box in Hc. cbn [b_origin b_dim] in Hc. apply in_box_zsub in Hc; [|lia]. destruct Hc as [Hcl Hc].
      rewrite (drep_get t correct b topo Hs d f c Hf); [discriminate|]. split; [lia|]. destruct (bool_cases correct) as [Ec|Ec]; rewrite Ec.
      * specialize (Hle Ec). split; [apply in_grid_close; [eapply forall2_le_pos; eauto|eapply in_grid_le; eauto]|].
        intros c' Hc'. rewrite denotes_self in Hc'; [|pose proof (forall2_length _ _ _ Hle); lia|eapply forall2_le_pos; eauto|eapply in_grid_le; eauto].
        injection Hc' as <-. exact Hc.
      * now apply in_grid_close.
Qed.

(** ** Copies *)
Lemma copy_cells_set {C} t (v : gview C) cs : forall g vs, Forall2 (fun c x => v_get v c = Some x) cs vs ->
  copy_cells t v g cs = set_cells t g (map (fun c => zsub c (b_origin (v_box v))) cs) vs.
Proof.
  induction cs as [|c cs IH]; intros g vs H; inversion H; subst; [reflexivity|]. cbn [copy_cells map set_cells]. rewrite H2. cbn [obind].
  destruct (grid_set t g (zsub c (b_origin (v_box v))) y) as [g'|]; [|reflexivity]. cbn [obind]. now apply IH.
Qed.

(** ** Coordinates of transferred regions *)
Lemma transfer_both t correct b topo (R : coord -> Prop) off n c : setup_ok t correct b topo -> length t = S n -> length off = S n ->
  transfer_ok t correct b topo R off -> R c -> length c = S n ->
  reachable_coord t correct b topo (zadd c off) /\ ddenotes t correct b topo (zadd c off) <> None.
Proof.
  intros (Hn & Ho & Hld & Hp & Hle) Ht Hoff Htr Hc Hlc. unfold reachable_coord, ddenotes, transfer_ok in *.
  rewrite zadd_length' by lia. destruct (bool_cases correct) as [Ec|Ec]; rewrite Ec in *.
  - specialize (Hle eq_refl). pose proof (forall2_length _ _ _ Hle) as Hlt. destruct Htr as [_ Htr]. destruct (Htr c Hc) as (H1 & c' & H2 & H3).
    apply denotes_wraps in H2; [|lia|eapply forall2_le_pos; eauto]. rewrite H2. split; [|discriminate]. split; [lia|]. split; [exact H1|].
    intros c2 E. injection E as <-. exact H3.
  - specialize (Htr c Hc). unfold in_box in Htr. apply in_box_zsub in Htr; [|lia]. destruct Htr as [_ Htr]. split.
    + split; [lia|]. now apply in_grid_close.
    + rewrite denotes_self; auto; discriminate.
Qed.

Lemma sub_inj o : forall a c, length o = length c -> length a = length c -> zsub a o = zsub c o -> a = c.
Proof.
  induction o as [|y o IH]; intros [|u a] [|v c] H1 H2 E; cbn in *; try lia; auto.
  injection E as E1 E2. f_equal; [lia|]. apply IH; auto; lia.
Qed.
