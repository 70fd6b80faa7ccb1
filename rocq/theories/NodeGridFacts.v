(** Facts on grids placed by OffsetHelper. *)
From Verif Require Import Base RegionSpec RegionModel RegionIterModel RegionRep RegionStreaks RegionOpsModel RegionOps CoordModel CoordSpec CoordFacts HaloSpec PartitionManagerModel PartitionManagerFacts PatchModel GridModel GridSpec GridFacts DisplacedFacts GridReach StencilModel StencilSpec StencilProps UpdateModel UpdateSpec UpdateFacts UpdateProps OffsetModel OffsetSpec OffsetFacts.

(** ** Predicates on coordinates, axis by axis *)

Lemma wraps_cons w t i : wraps_axis (w :: t) i = if Nat.eqb i (length t) then w else if Nat.ltb i (length t) then wraps_axis t i else false.
Proof.
  unfold wraps_axis. cbn [rev]. destruct (Nat.eqb_spec i (length t)) as [->|Hi].
  - rewrite app_nth2; rewrite rev_length; [|lia]. now rewrite Nat.sub_diag.
  - destruct (Nat.ltb_spec i (length t)).
    + now rewrite app_nth1 by (rewrite rev_length; lia).
    + apply nth_overflow. rewrite app_length, rev_length. cbn. lia.
Qed.

Lemma below_S (P : nat -> Prop) n : (forall i, (i < S n)%nat -> P i) <-> P n /\ forall i, (i < n)%nat -> P i.
Proof.
  split; [intros H; split; auto|]. intros [H1 H2] i Hi. destruct (Nat.eq_dec i n) as [->|]; [exact H1|apply H2; lia].
Qed.

Lemma top_axis x c : axis (length c) (x :: c) = x.
Proof. now rewrite axis_cons, Nat.eqb_refl. Qed.
Lemma top_wraps w t : wraps_axis (w :: t) (length t) = w.
Proof. now rewrite wraps_cons, Nat.eqb_refl. Qed.
Lemma low_axis x c i : (i < length c)%nat -> axis i (x :: c) = axis i c.
Proof. intros H. rewrite axis_cons. destruct (Nat.eqb_spec i (length c)); [lia|]. now rewrite (proj2 (Nat.ltb_lt _ _)) by lia. Qed.
Lemma low_wraps w t i : (i < length t)%nat -> wraps_axis (w :: t) i = wraps_axis t i.
Proof. intros H. rewrite wraps_cons. destruct (Nat.eqb_spec i (length t)); [lia|]. now rewrite (proj2 (Nat.ltb_lt _ _)) by lia. Qed.

Lemma axis_beyond i c : (length c <= i)%nat -> axis i c = 0.
Proof. intros H. unfold axis. apply nth_overflow. rewrite rev_length. lia. Qed.

Lemma axis_zadd a : forall b i, length a = length b -> axis i (zadd a b) = axis i a + axis i b.
Proof.
  induction a as [|x a IH]; intros [|y b] i Hl; try discriminate; [cbn [zadd]; rewrite axis_beyond by (cbn; lia); lia|].
  cbn [zadd]. rewrite !axis_cons, zadd_length' by (cbn in Hl; lia). injection Hl as Hl. rewrite Hl.
  destruct (Nat.eqb i (length b)); [reflexivity|]. destruct (Nat.ltb i (length b)); [now apply IH|reflexivity].
Qed.

Lemma axis_zsub a : forall b i, length a = length b -> axis i (zsub a b) = axis i a - axis i b.
Proof.
  induction a as [|x a IH]; intros [|y b] i Hl; try discriminate; [cbn [zsub]; rewrite axis_beyond by (cbn; lia); lia|].
  cbn [zsub]. rewrite !axis_cons, zsub_length by (cbn in Hl; lia). injection Hl as Hl. rewrite Hl.
  destruct (Nat.eqb i (length b)); [reflexivity|]. destruct (Nat.ltb i (length b)); [now apply IH|reflexivity].
Qed.

Lemma wraps_to_axis t : forall dim c c', length dim = length t -> length c = length t -> length c' = length t ->
  (wraps_to t dim c c' <-> forall i, (i < length t)%nat ->
     0 <= axis i c' < axis i dim /\ if wraps_axis t i then exists k, axis i c = axis i c' + k * axis i dim else axis i c = axis i c').
Proof.
  induction t as [|w t IH]; intros [|n dim] [|x c] [|x' c'] L1 L2 L3; try discriminate; cbn [wraps_to length].
  - split; [intros _ i Hi; lia|auto].
  - injection L1 as L1. injection L2 as L2. injection L3 as L3. rewrite below_S. rewrite top_wraps.
    assert (E1 : axis (length t) (n :: dim) = n) by (rewrite <- L1; apply top_axis). assert (E2 : axis (length t) (x :: c) = x) by (rewrite <- L2; apply top_axis).
    assert (E3 : axis (length t) (x' :: c') = x') by (rewrite <- L3; apply top_axis). rewrite E1, E2, E3, (IH dim c c' L1 L2 L3). split.
    + intros (H1 & H2 & H3). split; [split; [exact H1|exact H2]|]. intros i Hi. rewrite !low_axis, low_wraps by lia. now apply H3.
    + intros [[H1 H2] H3]. split; [exact H1|]. split; [exact H2|]. intros i Hi. specialize (H3 i Hi). rewrite !low_axis, low_wraps in H3 by lia. exact H3.
Qed.

Lemma close_by_axis dim : forall c, length c = length dim ->
  (close_by dim c <-> forall i, (i < length dim)%nat -> - axis i dim <= axis i c < 2 * axis i dim).
Proof.
  induction dim as [|n dim IH]; intros [|x c] L; try discriminate; cbn [close_by length].
  - split; [intros _ i Hi; lia|auto].
  - injection L as L. rewrite below_S, top_axis. assert (E : axis (length dim) (x :: c) = x) by (rewrite <- L; apply top_axis). rewrite E, (IH c L). split.
    + intros [H1 H2]. split; [exact H1|]. intros i Hi. rewrite !low_axis by lia. now apply H2.
    + intros [H1 H2]. split; [exact H1|]. intros i Hi. specialize (H2 i Hi). rewrite !low_axis in H2 by lia. exact H2.
Qed.

Lemma axis_zero (dim : coord) i : axis i (map (fun _ => 0) dim) = 0.
Proof.
  induction dim as [|n dim IH]; [apply axis_beyond; cbn; lia|]. cbn [map]. rewrite axis_cons.
  destruct (Nat.eqb i _); [reflexivity|]. now destruct (Nat.ltb i _).
Qed.

Lemma in_grid_axis dim c : in_grid dim c <-> length c = length dim /\ forall i, (i < length dim)%nat -> 0 <= axis i c < axis i dim.
Proof.
  unfold in_grid. rewrite inside_axis, map_length. split.
  - intros (_ & H1 & H2). split; [exact H1|]. intros i Hi. specialize (H2 i Hi). rewrite axis_zero in H2. lia.
  - intros [H1 H2]. split; [reflexivity|]. split; [exact H1|]. intros i Hi. rewrite axis_zero. specialize (H2 i Hi). lia.
Qed.

Lemma forall2_axis a b : length a = length b -> (Forall2 Z.le a b <-> forall i, (i < length a)%nat -> axis i a <= axis i b).
Proof.
  revert b. induction a as [|x a IH]; intros [|y b] L; try discriminate; cbn [length].
  - split; [intros _ i Hi; lia|constructor].
  - injection L as L. rewrite below_S, top_axis. rewrite L at 1. rewrite top_axis. split.
    + intros H. inversion H as [|? ? ? ? H1 H2]; subst. split; [exact H1|]. intros i Hi. rewrite !low_axis by lia. now apply (IH b L).
    + intros [H1 H2]. constructor; [exact H1|]. apply (IH b L). intros i Hi. specialize (H2 i Hi). rewrite !low_axis in H2 by lia. exact H2.
Qed.

Lemma denotes_axis t dim c p : length dim = length t -> length c = length t -> Forall (fun n => 0 < n) dim ->
  (denotes t dim c = Some p <-> length p = length t /\ forall i, (i < length t)%nat ->
     0 <= axis i p < axis i dim /\ if wraps_axis t i then exists k, axis i c = axis i p + k * axis i dim else axis i c = axis i p).
Proof.
  intros L1 L2 Hp. rewrite denotes_wraps by auto. split.
  - intros H. pose proof (wraps_length _ _ _ _ H) as (_ & _ & L). split; [lia|]. apply (wraps_to_axis t dim c p); auto; lia.
  - intros [L3 H]. apply wraps_to_axis; auto.
Qed.

(** ** A node's grid *)

(** Moved by one period along those axes where it lies before the box. *)
Fixpoint home (org topo c : coord) : coord :=
  match org, topo, c with
  | o :: org', n :: topo', x :: c' => (if x <? o then x + n else x) :: home org' topo' c'
  | _, _, _ => []
  end.

(** The extents of the box along axes which don't wrap. *)
Fixpoint narrow (t : topology) (dim topo : coord) : coord :=
  match t, dim, topo with
  | w :: t', m :: dim', n :: topo' => (if w then n else m) :: narrow t' dim' topo'
  | _, _, _ => []
  end.

Lemma home_length org : forall topo c, length org = length c -> length topo = length c -> length (home org topo c) = length c.
Proof. induction org as [|o org IH]; intros [|n topo] [|x c] H1 H2; try discriminate; [reflexivity|]. cbn [home length]. rewrite IH; auto; cbn in *; lia. Qed.

Lemma axis_home org : forall topo c i, length org = length c -> length topo = length c ->
  axis i (home org topo c) = if axis i c <? axis i org then axis i c + axis i topo else axis i c.
Proof.
  induction org as [|o org IH]; intros [|n topo] [|x c] i H1 H2; try discriminate.
  - cbn [home]. rewrite !axis_beyond by (cbn; lia). reflexivity.
  - cbn [home]. rewrite !axis_cons. rewrite home_length by (cbn in *; lia). injection H1 as H1. injection H2 as H2. rewrite H1, H2.
    destruct (Nat.eqb i (length c)); [reflexivity|]. destruct (Nat.ltb i (length c)); [now apply IH|reflexivity].
Qed.

Lemma narrow_length t : forall dim topo, length dim = length t -> length topo = length t -> length (narrow t dim topo) = length t.
Proof. induction t as [|w t IH]; intros [|m dim] [|k topo] H1 H2; try discriminate; [reflexivity|]. cbn [narrow length]. rewrite IH; auto; cbn in *; lia. Qed.

Lemma axis_narrow t : forall dim topo i, length dim = length t -> length topo = length t ->
  axis i (narrow t dim topo) = if wraps_axis t i then axis i topo else axis i dim.
Proof.
  induction t as [|w t IH]; intros [|m dim] [|k topo] i H1 H2; try discriminate.
  - cbn [narrow]. rewrite !axis_beyond by (cbn; lia). now destruct (wraps_axis [] i).
  - cbn [narrow]. rewrite !axis_cons, wraps_cons. rewrite narrow_length by (cbn in *; lia). injection H1 as H1. injection H2 as H2. rewrite H1, H2.
    destruct (Nat.eqb i (length t)); [reflexivity|]. destruct (Nat.ltb i (length t)); [now apply IH|reflexivity].
Qed.

(** Along axes which don't wrap, it doesn't matter how large the simulation
    area is. *)
Lemma narrow_oob t : forall c dim topo, Forall2 Z.le dim topo -> length dim = length t -> length c = length t ->
  out_of_bounds t c topo = true -> out_of_bounds t c (narrow t dim topo) = true.
Proof.
  induction t as [|w t IH]; intros [|x c] dim topo Hle L1 L2; try discriminate; inversion Hle as [|m k dim' topo' H1 H2]; subst; try discriminate.
  cbn [out_of_bounds narrow]. intros H. apply orb_true_iff in H. apply orb_true_iff. destruct H as [H|H]; [left; destruct w; cbn in *; [discriminate|lia]|right].
  apply IH; auto; cbn in *; lia.
Qed.

Lemma narrow_edge t : forall c dim topo, Forall2 Z.le dim topo -> length dim = length t -> length c = length t ->
  out_of_bounds t c topo = false -> out_of_bounds t c (narrow t dim topo) = true -> out_of_bounds t (normalize_edges c topo) dim = true.
Proof.
  induction t as [|w t IH]; intros [|x c] dim topo Hle L1 L2; try discriminate; inversion Hle as [|m k dim' topo' H1 H2]; subst; try discriminate.
  cbn [out_of_bounds narrow normalize_edges]. intros Ht H. apply orb_false_iff in Ht. apply orb_true_iff in H. apply orb_true_iff.
  destruct Ht as [Ht1 Ht2]. destruct H as [H|H].
  - left. destruct w; cbn in *; [discriminate|]. unfold wrap. destruct (Z.ltb_spec x 0); [lia|]. destruct (Z.leb_spec k x); lia.
  - right. apply IH; auto; cbn in *; lia.
Qed.

Lemma narrow_same t : forall c dim topo, Forall2 Z.le dim topo -> length dim = length t -> length c = length t ->
  out_of_bounds t c (narrow t dim topo) = false -> normalize_edges c (narrow t dim topo) = normalize_edges c topo.
Proof.
  induction t as [|w t IH]; intros [|x c] dim topo Hle L1 L2; try discriminate; inversion Hle as [|m k dim' topo' H1 H2]; subst; try discriminate; [reflexivity|].
  cbn [out_of_bounds narrow normalize_edges]. intros H. apply orb_false_iff in H. destruct H as [Hx H]. f_equal; [|apply IH; auto; cbn in *; lia].
  destruct w; [reflexivity|]. cbn in Hx. unfold wrap. destruct (Z.ltb_spec x 0); [lia|]. destruct (Z.leb_spec m x); [lia|]. destruct (Z.leb_spec k x); [lia|reflexivity].
Qed.

Lemma narrow_loc {C} t b topo (g : vgrid C) c : setup_ok t true b topo -> g_dim g = b_dim b -> length c = length t ->
  dg_loc t true (mkDGrid g (b_origin b) topo) c = dg_loc t true (mkDGrid g (b_origin b) (narrow t (b_dim b) topo)) c.
Proof.
  intros (Hne & Ho & Hd & Hp & Hle) Hg Hc. specialize (Hle eq_refl). unfold dg_loc, dg_coord. cbn [d_org d_topo d_grid]. cbv zeta.
  assert (Lr : length (zsub c (b_origin b)) = length t) by (rewrite zsub_length; lia).
  pose proof (forall2_length _ _ _ Hle) as Lt.
  set (rel := zsub c (b_origin b)) in *. clearbody rel. unfold normalize.
  destruct (out_of_bounds t rel topo) eqn:E1.
  - now rewrite (narrow_oob t rel (b_dim b) topo Hle Hd Lr E1).
  - destruct (out_of_bounds t rel (narrow t (b_dim b) topo)) eqn:E2.
    + unfold grid_loc. rewrite Hg. rewrite (narrow_edge t rel (b_dim b) topo Hle Hd Lr E1 E2).
      rewrite (oob_diag2 t (narrow t (b_dim b) topo)); auto; rewrite ?narrow_length; lia.
    + now rewrite (narrow_same t rel (b_dim b) topo Hle Hd Lr E2).
Qed.

(** Moving along wrapping axes by one period. *)
Lemma wrap_shift t : forall c c' dim, length c = length t -> length c' = length t -> length dim = length t ->
  (forall i, (i < length t)%nat -> axis i c' = axis i c \/ (wraps_axis t i = true /\ - axis i dim <= axis i c < 0 /\ axis i c' = axis i c + axis i dim)) ->
  out_of_bounds t c' dim = out_of_bounds t c dim /\ normalize_edges c' dim = normalize_edges c dim.
Proof.
  induction t as [|w t IH]; intros [|x c] [|x' c'] [|m dim] L1 L2 L3; try discriminate; [intros _; split; reflexivity|].
  injection L1 as L1. injection L2 as L2. injection L3 as L3. cbn [length]. rewrite below_S. rewrite top_wraps.
  assert (E1 : axis (length t) (m :: dim) = m) by (rewrite <- L3; apply top_axis). assert (E2 : axis (length t) (x :: c) = x) by (rewrite <- L1; apply top_axis).
  assert (E3 : axis (length t) (x' :: c') = x') by (rewrite <- L2; apply top_axis). rewrite E1, E2, E3. intros [H1 H2].
  destruct (IH c c' dim L1 L2 L3) as [K1 K2].
  { intros i Hi. specialize (H2 i Hi). rewrite !low_axis, low_wraps in H2 by lia. exact H2. }
  cbn [out_of_bounds normalize_edges]. rewrite K1, K2. destruct H1 as [->|(-> & H3 & ->)]; [split; reflexivity|]. cbn [negb andb orb]. split; [reflexivity|].
  f_equal. unfold wrap. destruct (Z.ltb_spec (x + m) 0); [lia|]. destruct (Z.leb_spec m (x + m)); [lia|]. destruct (Z.ltb_spec x 0); lia.
Qed.

Lemma axis_snoc p x i : axis i (p ++ [x]) = match i with O => x | S j => axis j p end.
Proof. unfold axis. rewrite rev_app_distr. cbn [rev app]. now destruct i. Qed.

Lemma axis_fc d f i : (1 <= d <= 3)%nat -> Z.abs (fc_x f) <= 1 -> Z.abs (fc_y f) <= 1 -> Z.abs (fc_z f) <= 1 -> -1 <= axis i (fc_coord d f) <= 1.
Proof. intros Hd H1 H2 H3. unfold axis, fc_coord. rewrite rev_involutive. destruct d as [|[|[|[|d]]]]; try lia; destruct i as [|[|[|i]]]; cbn; try lia; destruct i; lia. Qed.

Lemma fc_length d f : (1 <= d <= 3)%nat -> length (fc_coord d f) = d.
Proof. intros Hd. destruct d as [|[|[|[|d]]]]; try lia; reflexivity. Qed.

Lemma snoc_ext {A} (p q : list A) x y : p = q -> x = y -> p ++ [x] = q ++ [y].
Proof. now intros -> ->. Qed.

Lemma zadd_swap a : forall b c, length a = length b -> length c = length b -> zadd (zadd a b) c = zadd (zadd a c) b.
Proof. induction a as [|x a IH]; intros [|y b] [|z c] H1 H2; try discriminate; [reflexivity|]. cbn [zadd]. rewrite IH by (cbn in *; lia). f_equal. lia. Qed.

(** Both paths depend on the cells' addresses only. *)
Lemma van_loop_ext {C} st upd (old : vgrid C) loc locN loc' locN' n : forall sp tp sx tx sp' tp' sx' tx' g,
  (forall j, 0 <= j < Z.of_nat n -> Forall (fun e => loc' (zadd (sp' ++ [sx' + j]) (fc_coord (st_dim st) (snd e))) = loc (zadd (sp ++ [sx + j]) (fc_coord (st_dim st) (snd e)))) (st_table st)) ->
  (forall j, 0 <= j < Z.of_nat n -> locN' (tp' ++ [tx' + j]) = locN (tp ++ [tx + j])) ->
  van_loop st upd old loc' locN' n sp' tp' sx' tx' g = van_loop st upd old loc locN n sp tp sx tx g.
Proof.
  induction n as [|n IH]; intros sp tp sx tx sp' tp' sx' tx' g H1 H2; [reflexivity|]. cbn [van_loop].
  assert (E1 : hood_values st (fun f => deref old (loc' (zadd (sp' ++ [sx']) (fc_coord (st_dim st) f))) 0) = hood_values st (fun f => deref old (loc (zadd (sp ++ [sx]) (fc_coord (st_dim st) f))) 0)).
  { unfold hood_values. apply omap_ext. intros e He. specialize (H1 0 ltac:(lia)). rewrite Forall_forall in H1. specialize (H1 e He). rewrite !Z.add_0_r in H1. now rewrite H1. }
  assert (E2 : locN' (tp' ++ [tx']) = locN (tp ++ [tx])) by (specialize (H2 0 ltac:(lia)); rewrite !Z.add_0_r in H2; exact H2).
  rewrite E1, E2. clear E1 E2. destruct (hood_values _ _) as [vs|]; [|reflexivity]. cbn [obind]. destruct (deref g _ 0) as [v|]; [|reflexivity]. cbn [obind].
  destruct (store g _ 0 _) as [g1|]; [|reflexivity]. cbn [obind]. apply IH.
  - intros j Hj. specialize (H1 (j + 1) ltac:(lia)). replace (sx' + 1 + j) with (sx' + (j + 1)) by lia. replace (sx + 1 + j) with (sx + (j + 1)) by lia. exact H1.
  - intros j Hj. specialize (H2 (j + 1) ltac:(lia)). replace (tx' + 1 + j) with (tx' + (j + 1)) by lia. replace (tx + 1 + j) with (tx + (j + 1)) by lia. exact H2.
Qed.

Lemma lp_loop_len {C} st upd t (old : vgrid C) b s s' ps line g : s_e s - s_x s = s_e s' - s_x s' -> lp_flags st t s b = lp_flags st t s' b ->
  lp_line st upd t old b s ps line g = lp_line st upd t old b s' ps line g.
Proof.
  intros H1 H2. unfold lp_line. rewrite H1, H2. cbv zeta. replace (s_e s =? s_x s + 1) with (s_e s' =? s_x s' + 1) by (destruct (Z.eqb_spec (s_e s') (s_x s' + 1)); destruct (Z.eqb_spec (s_e s) (s_x s + 1)); lia).
  reflexivity.
Qed.

Lemma zeros_axis (dim : coord) i : axis i (zeros dim) = 0.
Proof. apply axis_zero. Qed.

Lemma zadd_zeros' c (dim : coord) : length c = length dim -> zadd c (zeros dim) = c.
Proof. revert dim. induction c as [|x c IH]; intros [|m dim] H; try discriminate; [reflexivity|]. cbn [zeros map zadd]. fold (zeros dim). rewrite IH by (cbn in H; lia). f_equal. lia. Qed.

Lemma move_zeros s (dim : coord) : S (length (s_pre s)) = length dim -> move_streak s (zeros dim) = s.
Proof.
  intros H. assert (Hz : last (zeros dim) 0 = 0) by (clear; unfold zeros; induction dim as [|y [|z l] IH]; [reflexivity|reflexivity|exact IH]).
  unfold move_streak. rewrite zadd_zeros' by (unfold s_origin; rewrite app_length; cbn; lia). rewrite Hz. unfold s_origin. rewrite removelast_last, last_last.
  destruct s as [p x e]. cbn. f_equal. lia.
Qed.

Lemma fc_near n st c f : line_stencil st -> st_dim st = S n -> in_stencil st f -> length c = S n -> length (zadd c (fc_coord (st_dim st) f)) = S n /\
  forall i, axis i c - 1 <= axis i (zadd c (fc_coord (st_dim st) f)) <= axis i c + 1.
Proof.
  intros Hst Hdim Hf L. destruct (line_stencil_facts st Hst) as (H1 & _). destruct (H1 f Hf) as (B1 & B2 & B3 & _). destruct Hst as (_ & H3 & _).
  assert (Lf : length (fc_coord (st_dim st) f) = S n) by (rewrite fc_length; lia). split; [rewrite zadd_length'; lia|].
  intros i. rewrite axis_zadd by lia. pose proof (axis_fc (st_dim st) f i H3 B1 B2 B3). lia.
Qed.

Section Node.
Context (n : nat) (t : topology) (sim : box) (r : indices) (HN : node_region n t sim r) (b : box) (Eb : guess_offset t r sim = Some b).

Lemma placed : length (b_origin b) = S n /\ length (b_dim b) = S n /\
  forall i, (i < S n)%nat -> axis_facts n t sim r i (axis i (b_origin b)) (axis i (b_dim b)).
Proof using HN Eb.
  pose proof HN as (Lt & _). destruct (offset_axes_spec t r sim (length t)) as (b' & E & L1 & L2 & H).
  - intros i Hi. destruct (offset_axis_spec n t sim r HN i ltac:(lia)) as (o & m & E & _). eauto.
  - unfold guess_offset in Eb. assert (b' = b) as -> by congruence. split; [lia|]. split; [lia|]. intros i Hi.
    destruct (offset_axis_spec n t sim r HN i Hi) as (o & m & E' & HA). specialize (H i ltac:(lia)). rewrite E' in H. injection H as -> ->. exact HA.
Qed.

Lemma sim_pos : Forall (fun k => 0 < k) (b_dim sim).
Proof using HN Eb. destruct placed as (_ & _ & H). pose proof HN as (_ & _ & L & _). apply axis_pos. intros i Hi. destruct (H i ltac:(lia)) as (H1 & _). cbv zeta in H1. lia. Qed.

Lemma placed_setup : setup_ok t true b (b_dim sim).
Proof using HN Eb.
  destruct placed as (L1 & L2 & H). pose proof HN as (Lt & _ & Ls & _). split; [intros ->; discriminate|]. split; [lia|]. split; [lia|]. split.
  - apply axis_pos. intros i Hi. destruct (H i ltac:(lia)) as (H1 & _). lia.
  - intros _. apply forall2_axis; [lia|]. intros i Hi. destruct (H i ltac:(lia)) as (H1 & _). cbv zeta in H1. lia.
Qed.

Notation nrw := (narrow t (b_dim b) (b_dim sim)).

Lemma narrow_setup : setup_ok t true b nrw.
Proof using HN Eb.
  destruct placed as (L1 & L2 & H). pose proof HN as (Lt & _ & Ls & _). destruct placed_setup as (P1 & P2 & P3 & P4 & P5).
  split; [exact P1|]. split; [exact P2|]. split; [exact P3|]. split; [exact P4|]. intros _. apply forall2_axis; [rewrite narrow_length; lia|].
  intros i Hi. rewrite axis_narrow by lia. destruct (H i ltac:(lia)) as (H1 & _). cbv zeta in H1. destruct (wraps_axis t i); lia.
Qed.

Lemma region_in_sim c : inr n r c -> length c = S n /\ forall i, (i < S n)%nat -> axis i (b_origin sim) <= axis i c < axis i (b_origin sim) + axis i (b_dim sim).
Proof using HN. pose proof HN as (_ & _ & Ls & _ & _ & H). intros Hc. apply H in Hc. apply inside_axis in Hc. destruct Hc as (_ & L & Hc). split; [lia|]. intros i Hi. apply Hc. lia. Qed.

(** Where the cells of the region and those next to them are found. *)
Lemma locate c c1 : inr n r c -> length c1 = S n -> (forall i, (i < S n)%nat -> axis i c - 1 <= axis i c1 <= axis i c + 1) ->
  (forall c2, sim_place t sim c1 = Some c2 -> inr n r c2) ->
  reachable_coord t true b nrw c1 /\
  ddenotes t true b nrw c1 = option_map (fun c2 => zsub (home (b_origin b) (b_dim sim) c2) (b_origin b)) (sim_place t sim c1).
Proof using HN Eb.
  intros Hc L1 Hnear Hin. destruct placed as (Lo & Lb & HA). pose proof HN as (Lt & Lso & Lsd & _). pose proof sim_pos as Hsp. pose proof narrow_setup as (_ & _ & _ & Hbp & Hle).
  specialize (Hle eq_refl). pose proof (forall2_le_pos _ _ Hbp Hle) as Hnp.
  assert (Ln : length nrw = S n) by (rewrite narrow_length; lia).
  assert (Lr : length (zsub c1 (b_origin b)) = S n) by (rewrite zsub_length; lia).
  destruct (region_in_sim c Hc) as [Lc Hcs].
  assert (Hden : ddenotes t true b nrw c1 = option_map (fun c2 => zsub (home (b_origin b) (b_dim sim) c2) (b_origin b)) (sim_place t sim c1)).
  { unfold ddenotes. destruct (sim_place t sim c1) as [c2|] eqn:E; cbn [option_map].
    - specialize (Hin c2 eq_refl). destruct (region_in_sim c2 Hin) as [L2 H2]. unfold sim_place in E. destruct (denotes t (b_dim sim) (zsub c1 (b_origin sim))) as [p|] eqn:Ep; [|discriminate].
      cbn in E. assert (c2 = zadd p (b_origin sim)) as -> by congruence. apply denotes_axis in Ep; [|lia|rewrite zsub_length; lia|exact Hsp]. destruct Ep as [Lp Hp].
      assert (Lh : length (home (b_origin b) (b_dim sim) (zadd p (b_origin sim))) = S n) by (rewrite home_length; lia).
      apply denotes_axis; [lia|lia|exact Hnp|]. split; [rewrite zsub_length; lia|]. intros i Hi. rewrite !axis_zsub by lia. rewrite axis_home by lia. rewrite axis_narrow by lia.
      destruct (HA i ltac:(lia)) as (A1 & A2 & A3 & A4 & A5 & _). cbv zeta in A1, A2, A5. specialize (A5 _ Hin). specialize (Hp i ltac:(lia)). specialize (H2 i ltac:(lia)).
      rewrite axis_zsub in Hp by lia. rewrite axis_zadd in * by lia. destruct Hp as [Hp1 Hp2]. destruct (wraps_axis t i) eqn:Ew.
      + split; [lia|]. destruct Hp2 as (k & Hk). destruct (_ <? _); [exists (k - 1); lia|exists k; lia].
      + destruct (A4 eq_refl) as [_ A4']. clear A4. rename A4' into A4. specialize (A4 _ Hin). rewrite axis_zadd in A4 by lia. rewrite (proj2 (Z.ltb_ge _ _)) by lia. lia.
    - destruct (denotes t nrw (zsub c1 (b_origin b))) as [q|] eqn:Eq; [|reflexivity]. exfalso. apply denotes_axis in Eq; [|lia|lia|exact Hnp]. destruct Eq as [Lq Hq].
      unfold sim_place in E. destruct (denotes t (b_dim sim) (zsub c1 (b_origin sim))) as [p|] eqn:Ep; [discriminate E|]. clear E.
      assert (Hex : exists p, length p = length t /\ forall i, (i < length t)%nat -> 0 <= axis i p < axis i (b_dim sim) /\
        if wraps_axis t i then exists k, axis i (zsub c1 (b_origin sim)) = axis i p + k * axis i (b_dim sim) else axis i (zsub c1 (b_origin sim)) = axis i p).
      { exists (map (fun i => if wraps_axis t i then axis i (zsub c1 (b_origin sim)) mod axis i (b_dim sim) else axis i (zsub c1 (b_origin sim))) (rev (seq 0 (S n)))).
        split; [rewrite map_length, rev_length, seq_length; lia|]. intros i Hi. rewrite axis_zsub by lia.
        assert (Ea : forall f : nat -> Z, axis i (map f (rev (seq 0 (S n)))) = f i).
        { intros f. unfold axis. rewrite <- map_rev, rev_involutive. rewrite (nth_indep _ 0 (f O)) by (rewrite map_length, seq_length; lia). rewrite map_nth, seq_nth by lia. f_equal. }
        rewrite Ea. rewrite axis_zsub by lia. destruct (HA i ltac:(lia)) as (A1 & A2 & _ & A4 & _). cbv zeta in A1, A2, A4. specialize (Hq i ltac:(lia)). rewrite axis_zsub, axis_narrow in Hq by lia.
        destruct (wraps_axis t i) eqn:Ew.
        - split; [apply Z.mod_pos_bound; lia|]. exists ((axis i c1 - axis i (b_origin sim)) / axis i (b_dim sim)).
          pose proof (Z.div_mod (axis i c1 - axis i (b_origin sim)) (axis i (b_dim sim))). lia.
        - split; [|reflexivity]. destruct Hq as [Hq1 Hq2]. destruct (A4 eq_refl) as [A4' _]. lia. }
      destruct Hex as (p & Hp). apply (denotes_axis t (b_dim sim)) in Hp; [|lia|rewrite zsub_length; lia|exact Hsp]. congruence. }
  split; [|exact Hden]. split; [lia|]. split.
  - apply close_by_axis; [lia|]. intros i Hi. rewrite axis_zsub, axis_narrow by lia. destruct (HA i ltac:(lia)) as (A1 & A2 & A3 & A4 & A5 & _). cbv zeta in A1, A2, A5.
    specialize (Hcs i ltac:(lia)). specialize (Hnear i ltac:(lia)). specialize (A5 c Hc). destruct (wraps_axis t i) eqn:Ew; [lia|]. destruct (A4 eq_refl) as [_ A4']. specialize (A4' c Hc). lia.
  - intros c' Ec. unfold ddenotes in Hden. rewrite Ec in Hden. destruct (sim_place t sim c1) as [c2|] eqn:E; [|discriminate]. cbn [option_map] in Hden.
    assert (c' = zsub (home (b_origin b) (b_dim sim) c2) (b_origin b)) as -> by congruence. specialize (Hin c2 eq_refl). destruct (region_in_sim c2 Hin) as [L2 H2].
    assert (Lh : length (home (b_origin b) (b_dim sim) c2) = S n) by (rewrite home_length; lia).
    apply in_grid_axis. split; [rewrite zsub_length; lia|]. intros i Hi. rewrite axis_zsub, axis_home by lia. destruct (HA i ltac:(lia)) as (_ & _ & _ & _ & A5 & _). cbv zeta in A5.
    specialize (A5 c2 Hin). lia.
Qed.
(** ** Updates *)

Notation org := (b_origin b).
Definition kshift (c : coord) : coord := zsub (home (b_origin b) (b_dim sim) c) c.

Lemma kshift_axis c i : inr n r c -> length (kshift c) = S n /\ axis i (kshift c) = (if axis i c <? axis i org then axis i (b_dim sim) else 0).
Proof using HN Eb.
  intros Hc. destruct placed as (Lo & Lb & _). pose proof HN as (_ & _ & Ls & _). destruct (region_in_sim c Hc) as [Lc _].
  assert (Lh : length (home org (b_dim sim) c) = S n) by (rewrite home_length; lia). unfold kshift. split; [rewrite zsub_length; lia|].
  rewrite axis_zsub by lia. rewrite axis_home by lia. destruct (_ <? _); lia.
Qed.

Lemma home_in_box c : inr n r c -> in_box b (zadd c (kshift c)).
Proof using HN Eb.
  intros Hc. destruct placed as (Lo & Lb & HA). destruct (region_in_sim c Hc) as [Lc _]. destruct (kshift_axis c 0 Hc) as [Lk _].
  apply inside_axis. split; [lia|]. split; [rewrite zadd_length'; lia|]. intros i Hi. rewrite axis_zadd by lia. rewrite (proj2 (kshift_axis c i Hc)).
  destruct (HA i ltac:(lia)) as (_ & _ & _ & _ & A5 & _). cbv zeta in A5. specialize (A5 c Hc). destruct (_ <? _); lia.
Qed.

Lemma shift_loc {C} (d : dgrid C) c c1 : d_org d = org -> d_topo d = b_dim sim -> inr n r c -> length c1 = S n ->
  (forall i, (i < S n)%nat -> axis i c - 1 <= axis i c1 <= axis i c + 1) -> dg_loc t true d (zadd c1 (kshift c)) = dg_loc t true d c1.
Proof using HN Eb.
  intros Ho Ht Hc L1 Hnear. destruct placed as (Lo & Lb & HA). pose proof HN as (Lt & Lso & Ls & _). destruct (region_in_sim c Hc) as [Lc Hcs]. destruct (kshift_axis c 0 Hc) as [Lk _].
  assert (La : length (zadd c1 (kshift c)) = S n) by (rewrite zadd_length'; lia).
  destruct (wrap_shift t (zsub c1 org) (zsub (zadd c1 (kshift c)) org) (b_dim sim)) as [K1 K2]; [rewrite zsub_length; lia|rewrite zsub_length; lia|lia| |].
  - intros i Hi. rewrite !axis_zsub, axis_zadd by lia. rewrite (proj2 (kshift_axis c i Hc)). destruct (HA i ltac:(lia)) as (A1 & A2 & A3 & A4 & A5 & _). cbv zeta in A1, A2.
    specialize (Hcs i ltac:(lia)). specialize (Hnear i ltac:(lia)). specialize (A3 c Hc). destruct (Z.ltb_spec (axis i c) (axis i org)) as [H|H]; [right|left; lia].
    split; [|lia]. destruct (wraps_axis t i) eqn:Ew; [reflexivity|]. destruct (A4 eq_refl) as [_ A4']. specialize (A4' c Hc). lia.
  - unfold dg_loc, dg_coord. rewrite Ho, Ht. cbv zeta. unfold normalize. rewrite K1, K2. replace (length (zsub (zadd c1 (kshift c)) org)) with (length (zsub c1 org)) by (rewrite !zsub_length; lia). reflexivity.
Qed.

Lemma streak_shift s c : length (s_pre s) = n -> s_x s < s_e s -> Forall (inr n r) (streak_coords s) -> In c (streak_coords s) -> kshift c = kshift (s_origin s).
Proof using HN Eb.
  intros Hp Hx Hs Hc. destruct placed as (Lo & Lb & HA). rewrite Forall_forall in Hs.
  assert (Hrow : forall x, s_x s <= x < s_e s -> inr n r (s_pre s ++ [x])).
  { intros x Hxx. apply Hs. unfold streak_coords. apply in_map_iff. exists x. split; [reflexivity|]. now apply zrange_in. }
  unfold streak_coords in Hc. apply in_map_iff in Hc. destruct Hc as (x & <- & Hxx). apply zrange_in in Hxx. pose proof (Hrow x Hxx) as H1. pose proof (Hrow (s_x s) ltac:(lia)) as H2.
  unfold s_origin. apply axis_ext; [rewrite (proj1 (kshift_axis _ 0 H1)), (proj1 (kshift_axis _ 0 H2)); reflexivity|]. intros i _.
  rewrite (proj2 (kshift_axis _ i H1)), (proj2 (kshift_axis _ i H2)). rewrite !axis_snoc. destruct i as [|i]; [|reflexivity].
  destruct (HA O ltac:(lia)) as (_ & _ & A3 & _). destruct (Z.ltb_spec x (axis 0 org)); destruct (Z.ltb_spec (s_x s) (axis 0 org)); try reflexivity; try lia.
  exfalso. apply (A3 (s_pre s ++ [axis 0 org - 1])); [apply Hrow; lia|]. now rewrite axis_snoc.
Qed.

(** Streaks of the region. *)
Section Streaks.
Context {C : Type} (d dn : dgrid C) (Hd : node_grid b (b_dim sim) d) (Hdn : node_grid b (b_dim sim) dn).
Context (st : stencil) (Hst : line_stencil st) (Hdim : st_dim st = length t) (upd : list C -> C -> C).
Context (s : streak) (Hp : length (s_pre s) = n) (Hx : s_x s < s_e s) (Hs : Forall (inr n r) (streak_coords s)).
Let k := kshift (s_origin s).
Let s' := move_streak s k.

Lemma row_in x : s_x s <= x < s_e s -> inr n r (s_pre s ++ [x]).
Proof using All. intros Hxx. rewrite Forall_forall in Hs. apply Hs. unfold streak_coords. apply in_map_iff. exists x. split; [reflexivity|]. now apply zrange_in. Qed.

Lemma row_k x : s_x s <= x < s_e s -> kshift (s_pre s ++ [x]) = k.
Proof using All. intros Hxx. apply (streak_shift s); auto. unfold streak_coords. apply in_map_iff. exists x. split; [reflexivity|]. now apply zrange_in. Qed.

Lemma k_parts : length k = S n /\ k = removelast k ++ [last k 0] /\ length (removelast k) = n /\
  s' = mkStreak (zadd (s_pre s) (removelast k)) (s_x s + last k 0) (s_e s + last k 0).
Proof using All.
  pose proof (row_in (s_x s) ltac:(lia)) as H. assert (L : length k = S n) by (exact (proj1 (kshift_axis _ 0 H))).
  destruct (snoc_parts k n 0 L) as [K1 K2]. split; [exact L|]. split; [exact K1|]. split; [exact K2|]. unfold s'. now destruct (move_parts n s k Hp L) as [-> _].
Qed.

Lemma row_shift x c1 : s_x s <= x < s_e s -> length c1 = S n -> (forall i, (i < S n)%nat -> axis i (s_pre s ++ [x]) - 1 <= axis i c1 <= axis i (s_pre s ++ [x]) + 1) ->
  dg_loc t true d (zadd c1 k) = dg_loc t true d c1 /\ dg_loc t true dn (zadd c1 k) = dg_loc t true dn c1.
Proof using All.
  intros Hxx L Hn. rewrite <- (row_k x Hxx). destruct Hd as (D1 & D2 & _). destruct Hdn as (N1 & N2 & _). split; apply shift_loc; auto using row_in.
Qed.

Lemma row_snoc x : s_pre s' ++ [x + last k 0] = zadd (s_pre s ++ [x]) k.
Proof using All. destruct k_parts as (L & K1 & K2 & K3). rewrite K3. cbn [s_pre]. rewrite K1 at 3. rewrite zadd_snoc by lia. reflexivity. Qed.

Lemma neighbor_shift x f : s_x s <= x < s_e s -> in_stencil st f ->
  dg_loc t true d (zadd (s_pre s' ++ [x + last k 0]) (fc_coord (st_dim st) f)) = dg_loc t true d (zadd (s_pre s ++ [x]) (fc_coord (st_dim st) f)).
Proof using All.
  intros Hxx Hf. rewrite row_snoc. destruct k_parts as (L & _). assert (Lc : length (s_pre s ++ [x]) = S n) by (rewrite app_length; cbn [length]; lia).
  pose proof HN as (Lt & _). destruct (fc_near n st (s_pre s ++ [x]) f Hst ltac:(lia) Hf Lc) as [Ln Hn]. destruct Hst as (_ & H3 & _).
  rewrite zadd_swap by (rewrite ?fc_length; lia). apply (row_shift x); auto.
Qed.

Lemma van_moved g : van_body st upd (d_grid d) (dg_loc t true d) (dg_loc t true dn) (zeros (b_dim b)) (zeros (b_dim b)) s' g =
  van_body st upd (d_grid d) (dg_loc t true d) (dg_loc t true dn) (zeros (b_dim b)) (zeros (b_dim b)) s g.
Proof using All.
  destruct k_parts as (L & K1 & K2 & K3). destruct placed as (Lo & Lb & _). assert (Lp : length (s_pre s') = n) by (rewrite K3; cbn; rewrite zadd_length'; lia).
  destruct (line_stencil_facts st Hst) as (_ & _ & Htab & _).
  unfold van_body. rewrite (move_zeros s) by lia. rewrite (move_zeros s') by lia. cbv zeta. rewrite !zadd_zeros' by (unfold s_origin; rewrite app_length; cbn [length]; lia).
  unfold s_origin. rewrite !removelast_last, !last_last. replace (s_x s') with (s_x s + last k 0) by (rewrite K3; reflexivity).
  replace (s_e s' - (s_x s + last k 0)) with (s_e s - s_x s) by (rewrite K3; cbn; lia). apply van_loop_ext.
  - intros j Hj. apply Forall_forall. intros e He. replace (s_x s + last k 0 + j) with (s_x s + j + last k 0) by lia. apply neighbor_shift; [lia|now apply Htab].
  - intros j Hj. replace (s_x s + last k 0 + j) with (s_x s + j + last k 0) by lia. rewrite row_snoc. apply (row_shift (s_x s + j)); [lia|rewrite app_length; cbn [length]; lia|intros; lia].
Qed.

Lemma lp_moved g : lp_body st upd t (d_grid d) (dg_loc t true d) b (dg_loc t true dn) (zeros (b_dim b)) (zeros (b_dim b)) s' g =
  lp_body st upd t (d_grid d) (dg_loc t true d) b (dg_loc t true dn) (zeros (b_dim b)) (zeros (b_dim b)) s g.
Proof using All.
  destruct k_parts as (L & K1 & K2 & K3). destruct placed as (Lo & Lb & HA). assert (Lp : length (s_pre s') = n) by (rewrite K3; cbn; rewrite zadd_length'; lia).
  unfold lp_body. rewrite (move_zeros s) by lia. rewrite (move_zeros s') by lia. rewrite !zadd_zeros' by (unfold s_origin; rewrite app_length; cbn [length]; lia).
  pose proof HN as (Lt & _). pose proof Hst as (_ & H3 & _).
  assert (Ea : lp_assemble st (dg_loc t true d) s' = lp_assemble st (dg_loc t true d) s).
  { unfold lp_assemble. apply omap_ext. intros i _. destruct (st_coord st i) as [f|] eqn:Ef; [|reflexivity]. cbn [obind].
    destruct (line_stencil_facts st Hst) as (B & _ & _ & T1 & T2 & T3). destruct (C45_tables st T1 T2) as (_ & TT & _). destruct (TT i f Ef) as [Hf _].
    assert (Lc : forall x, length (s_pre s ++ [x]) = S n) by (intros; rewrite app_length; cbn [length]; lia).
    destruct (fc_coord_snoc (st_dim st) f H3) as [Ef1 Ef2].
    assert (El : forall x y, s_x s <= x < s_e s -> x - 1 <= y <= x + 1 ->
      dg_loc t true d (zadd (s_pre s') (removelast (fc_coord (st_dim st) f)) ++ [y + last k 0]) = dg_loc t true d (zadd (s_pre s) (removelast (fc_coord (st_dim st) f)) ++ [y])).
    { intros x y Hxx Hy. replace (zadd (s_pre s') (removelast (fc_coord (st_dim st) f)) ++ [y + last k 0]) with (zadd (zadd (s_pre s) (removelast (fc_coord (st_dim st) f)) ++ [y]) k).
      - apply (row_shift x); [exact Hxx|rewrite app_length, zadd_length' by lia; cbn; lia|]. intros j Hj. rewrite !axis_snoc. destruct j as [|j]; [exact Hy|]. rewrite axis_zadd by lia.
        destruct (B f Hf) as (B1 & B2 & B3 & _). pose proof (axis_fc (st_dim st) f (S j) H3 B1 B2 B3) as Hb. rewrite Ef1, axis_snoc in Hb. lia.
      - rewrite K1 at 1. rewrite zadd_snoc by (rewrite zadd_length'; lia). f_equal. rewrite K3. cbn [s_pre]. apply zadd_swap; lia. }
    assert (Esx : s_x s' = s_x s + last k 0) by (rewrite K3; reflexivity). assert (Ese : s_e s' = s_e s + last k 0) by (rewrite K3; reflexivity).
    unfold line_coord, calc_x. rewrite Esx, Ese.
    destruct (fc_x f =? -1); [cbn [option_map]; f_equal; replace (s_x s + last k 0 - 1) with (s_x s - 1 + last k 0) by lia; apply (El (s_x s)); lia|].
    destruct (fc_x f =? 0); [cbn [option_map]; f_equal; apply (El (s_x s)); lia|].
    destruct (fc_x f =? 1); [cbn [option_map]; f_equal; apply (El (s_e s - 1)); lia|reflexivity]. }
  rewrite Ea. destruct (lp_assemble st _ s) as [ps|]; [|reflexivity]. cbn [obind].
  assert (Eo : s_origin s' = zadd (s_origin s) k).
  { unfold s_origin. replace (s_x s') with (s_x s + last k 0) by (rewrite K3; reflexivity). apply row_snoc. }
  assert (El : dg_loc t true dn (s_origin s') = dg_loc t true dn (s_origin s)).
  { rewrite Eo. apply (row_shift (s_x s)); [lia|unfold s_origin; rewrite app_length; cbn [length]; lia|unfold s_origin; intros; lia]. }
  rewrite El. apply lp_loop_len; [rewrite K3; cbn; lia|].
  pose proof (row_in (s_x s) ltac:(lia)) as Hr0. fold (s_origin s) in Hr0. destruct (region_in_sim _ Hr0) as [Lc _].
  assert (Ec : forall i z, (i < st_dim st)%nat -> negb (wraps_axis t i) && (axis i (s_origin s') =? z) = negb (wraps_axis t i) && (axis i (s_origin s) =? z)).
  { intros i z Hi. destruct (wraps_axis t i) eqn:Ew; [reflexivity|]. cbn [negb andb]. f_equal. rewrite Eo, axis_zadd by lia. unfold k. rewrite (proj2 (kshift_axis _ i Hr0)).
    destruct (HA i ltac:(lia)) as (_ & _ & _ & A4 & _). destruct (A4 Ew) as [_ A4']. specialize (A4' _ Hr0). rewrite (proj2 (Z.ltb_ge _ _)) by lia. lia. }
  unfold lp_flags. cbv zeta. destruct (Z.ltb_spec 1 (Z.of_nat (st_dim st))); destruct (Z.ltb_spec 2 (Z.of_nat (st_dim st))); cbn [andb]; rewrite ?Ec by lia; reflexivity.
Qed.

Lemma moved_in_box : Forall (in_box b) (streak_coords s').
Proof using All.
  destruct k_parts as (L & K1 & K2 & K3). apply Forall_forall. intros c Hc. unfold streak_coords in Hc. apply in_map_iff in Hc. destruct Hc as (x & <- & Hxx). apply zrange_in in Hxx.
  rewrite K3 in Hxx. cbn in Hxx. assert (Hy : exists y, x = y + last k 0 /\ s_x s <= y < s_e s) by (exists (x - last k 0); lia). destruct Hy as (y & -> & Hy).
  rewrite row_snoc. rewrite <- (row_k y Hy). apply home_in_box. now apply row_in.
Qed.

Lemma lp_van g : lp_body st upd t (d_grid d) (dg_loc t true d) b (dg_loc t true dn) (zeros (b_dim b)) (zeros (b_dim b)) s g =
  van_body st upd (d_grid d) (dg_loc t true d) (dg_loc t true dn) (zeros (b_dim b)) (zeros (b_dim b)) s g.
Proof using All.
  rewrite <- lp_moved, <- van_moved. destruct k_parts as (L & K1 & K2 & K3). destruct Hd as (D1 & D2 & D3 & _). destruct Hdn as (N1 & N2 & N3 & _). destruct placed as (Lo & Lb & _). pose proof HN as (Lt & _).
  apply lp_body_located with (topo := b_dim sim) (bN := b) (topoN := b_dim sim); auto using placed_setup.
  - rewrite K3. cbn. lia.
  - rewrite K3. cbn. rewrite zadd_length'; lia.
  - unfold zeros. rewrite map_length. lia.
  - apply moved_in_box.
  - eapply Forall_impl; [|apply moved_in_box]. intros c Hc. rewrite zadd_zeros'; [exact Hc|]. apply inside_axis in Hc. lia.
Qed.
End Streaks.
End Node.
