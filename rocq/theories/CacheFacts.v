(** Lemmas about CacheBlockingSimulator. *)
From Coq Require Import Permutation.
From Verif Require Import Base ListFacts RegionSpec RegionModel RegionRep RegionIterModel RegionStreaks
  CoordModel CoordSpec RegionOpsModel RegionOps CoordFacts RegionReach TopologyFacts RegionExpand RegionWrap
  HaloSpec AdapterModel PatchModel GridModel GridSpec GridFacts GridReach DisplacedFacts StencilModel StencilSpec UpdateModel UpdateSpec UpdateFacts SellFacts CacheModel CacheSpec.

(** ** Expansion on a cube *)

Lemma cube_streak dz dy dx target s : 0 < dz -> 0 < dy -> 0 < dx -> rvalid 2 target -> length (s_pre s) = 2%nat ->
  let r' := normalize_streak cube3 (trim_streak s [dz; dy; dx]) target [dz; dy; dx] in
  rvalid 2 r' /\ forall c, length c = 3%nat -> (rin r' c <-> rin target c \/ in_streak s c /\ in_grid [dz; dy; dx] c).
Proof.
  intros Hz Hy Hx Hv Hp. destruct s as [[|z [|y [|? ?]]] a b]; cbn [s_pre length] in Hp; try discriminate Hp.
  unfold trim_streak, normalize_streak. cbn [s_pre s_x s_e last]. unfold s_origin, normalize. cbn [s_pre s_x app out_of_bounds cube3 negb andb length].
  assert (Hc3 : forall c, length c = 3%nat -> (in_streak (mkStreak [z; y] a b) c /\ in_grid [dz; dy; dx] c <->
    exists x, c = [z; y; x] /\ a <= x < b /\ 0 <= z < dz /\ 0 <= y < dy /\ 0 <= x < dx)).
  { intros c Hc. split.
    - intros [(x & -> & H1) H2]. cbn in H1, H2. exists x. split; [reflexivity|]. cbn [s_pre app] in H2. lia.
    - intros (x & -> & H1). split; [exists x; split; [reflexivity|cbn; lia]|cbn; lia]. }
  destruct (_ || _) eqn:Eo.
  - cbn [diagonal repeat length]. rewrite (proj2 (coord_eqb_spec [-1; -1; -1] [-1; -1; -1]) eq_refl).
    split; [exact Hv|]. intros c Hc. rewrite Hc3 by exact Hc. split; [tauto|]. intros [H|(x & _ & H)]; [exact H|]. exfalso.
    destruct (Z.ltb_spec z 0), (Z.leb_spec dz z), (Z.ltb_spec y 0), (Z.leb_spec dy y), (Z.ltb_spec (Z.max a 0) 0), (Z.leb_spec dx (Z.max a 0)); cbn in Eo; try discriminate Eo; lia.
  - assert (Hb : 0 <= z < dz /\ 0 <= y < dy /\ 0 <= Z.max a 0 < dx).
    { destruct (Z.ltb_spec z 0), (Z.leb_spec dz z), (Z.ltb_spec y 0), (Z.leb_spec dy y), (Z.ltb_spec (Z.max a 0) 0), (Z.leb_spec dx (Z.max a 0)); cbn in Eo; try discriminate Eo; lia. }
    clear Eo. cbn [normalize_edges]. rewrite !wrap_in by lia. cbn [removelast last length].
    cbn [diagonal repeat].
    assert (CoordModel.coord_eqb [z; y; Z.max a 0] [-1; -1; -1] = false) as ->.
    { apply not_true_iff_false. rewrite coord_eqb_spec. intros E. injection E as -> _ _. lia. }
    destruct (insert_valid 2 target (mkStreak [z; y] (Z.max a 0) (Z.max a 0 + (Z.min dx b - Z.max a 0))) Hv eq_refl) as [V I].
    split; [exact V|]. intros c Hc. rewrite I, Hc3 by exact Hc. split; intros [H|H]; auto; right.
    + destruct H as (x & -> & H). cbn [s_pre s_x s_e app] in *. exists x. split; [reflexivity|]. lia.
    + destruct H as (x & -> & H). exists x. split; [reflexivity|]. cbn. lia.
Qed.

Lemma cube_fold dz dy dx l : 0 < dz -> 0 < dy -> 0 < dx -> forall target, rvalid 2 target -> Forall (fun s => length (s_pre s) = 2%nat) l ->
  let r' := fold_left (fun ret s => if last cube3 false then split_streak cube3 s ret [dz; dy; dx]
                                    else normalize_streak cube3 (trim_streak s [dz; dy; dx]) ret [dz; dy; dx]) l target in
  rvalid 2 r' /\ forall c, length c = 3%nat -> (rin r' c <-> rin target c \/ in_streaks l c /\ in_grid [dz; dy; dx] c).
Proof.
  intros Hz Hy Hx. change (last cube3 false) with false. cbv iota. induction l as [|s l IH]; intros target Hv Hl; cbn [fold_left].
  - split; [exact Hv|]. intros c Hc. split; [tauto|]. intros [H|[(s & [] & _) _]]. exact H.
  - destruct (cube_streak dz dy dx target s Hz Hy Hx Hv (Forall_inv Hl)) as [V I]. destruct (IH _ V (Forall_inv_tail Hl)) as [V' I'].
    split; [exact V'|]. intros c Hc. rewrite I', I by exact Hc. rewrite in_streaks_cons. tauto.
Qed.

Lemma cube_expand dz dy dx r w : 0 < dz -> 0 < dy -> 0 < dx -> rvalid 2 r -> 0 <= w ->
  exists r', reg_expand_topology r w [dz; dy; dx] cube3 = Some r' /\ rvalid 2 r' /\
    forall c, length c = 3%nat -> (rin r' c <-> in_grid [dz; dy; dx] c /\ exists c0, length c0 = 3%nat /\ rin r c0 /\ near [w; w; w] c c0).
Proof.
  intros Hz Hy Hx Hv Hw. unfold reg_expand_topology, reg_expand. rewrite (valid_length 2 r Hv).
  destruct (expand_valid 2 r (diagonal 3 w) Hv eq_refl) as (b & Eb & Vb & Hb); [unfold diagonal; cbn; repeat constructor; exact Hw|].
  rewrite Eb. cbn [obind]. destruct (streaks_valid 2 b Vb) as (l & [_ Hok] & Hl & El & _ & _). rewrite El. cbn [obind].
  destruct (cube_fold dz dy dx l Hz Hy Hx (reg_empty 3) (rvalid_empty 2)) as [V I].
  { eapply Forall_impl; [|exact Hok]. cbn. tauto. }
  eexists. split; [reflexivity|]. split; [exact V|]. intros c Hc. rewrite I by exact Hc. rewrite <- Hl by exact Hc. rewrite Hb by exact Hc.
  assert (~ rin (reg_empty 3) c) by (now apply (rin_empty 2)). change (diagonal 3 w) with [w; w; w]. tauto.
Qed.

(** ** Frames *)

Lemma coord3 (c : coord) : length c = 3%nat -> exists z y x, c = [z; y; x].
Proof. destruct c as [|z [|y [|x [|? ?]]]]; try discriminate. intros _. now exists z, y, x. Qed.

Section Frames.
Variables (dz dy dx wy wx : Z).
Hypothesis (Hz : 0 < dz) (Hy : 0 < dy) (Hx : 0 < dx) (Hwy : 0 < wy) (Hwx : 0 < wx).
Let dim := [dz; dy; dx].
Let wdim := (wy, wx).

Definition stage_cells (oy ox k : Z) (r : indices) : Prop :=
  rvalid 2 r /\ forall z y x, rin r [z; y; x] <-> 0 <= z < dz /\ grown oy wy dy k y /\ grown ox wx dx k x.

Lemma grown_step o w n k y : 0 <= o < n -> 0 < w -> 0 <= k ->
  (grown o w n (k + 1) y <-> 0 <= y < n /\ exists y0, grown o w n k y0 /\ y0 - 1 <= y <= y0 + 1).
Proof.
  intros Ho Hw Hk. unfold grown. split.
  - intros [H1 H2]. split; [exact H2|].
    exists (Z.max (Z.max 0 (o - k)) (Z.min y (Z.min (n - 1) (Z.min (o + w) n + k - 1)))). lia.
  - intros (H1 & y0 & H2 & H3). lia.
Qed.

Lemma stage_expand oy ox k r : 0 <= oy < dy -> 0 <= ox < dx -> 0 <= k -> stage_cells oy ox k r ->
  exists r', reg_expand_topology r 1 dim cube3 = Some r' /\ stage_cells oy ox (k + 1) r'.
Proof using Hz Hy Hx Hwy Hwx.
  intros Ho1 Ho2 Hk [V H]. destruct (cube_expand dz dy dx r 1 Hz Hy Hx V) as (r' & E & V' & H'); [lia|].
  exists r'. split; [exact E|]. split; [exact V'|]. intros z y x. rewrite H' by reflexivity.
  rewrite (grown_step oy wy dy k y), (grown_step ox wx dx k x) by lia. split.
  - intros (Hg & c0 & Hc & Hr & Hn). destruct (coord3 c0 Hc) as (z0 & y0 & x0 & ->). apply H in Hr. cbn in Hg, Hn.
    destruct Hr as (R1 & R2 & R3). split; [lia|]. split; (split; [lia|]); [exists y0|exists x0]; split; auto; lia.
  - intros (H1 & (H2 & y0 & H3 & H4) & (H5 & x0 & H6 & H7)). split; [cbn; lia|]. exists [z; y0; x0]. split; [reflexivity|].
    split; [apply H; auto|cbn; lia].
Qed.

Lemma earlier_spec oy ox n : forall k rs, 0 <= oy < dy -> 0 <= ox < dx ->
  (forall i r, nth_error rs i = Some r -> stage_cells oy ox (k - Z.of_nat i) r) -> 0 <= k -> length rs = S (Z.to_nat k) ->
  exists rs', earlier_stages dim n rs = Some rs' /\ length rs' = (n + length rs)%nat /\
    forall i r, nth_error rs' i = Some r -> stage_cells oy ox (k + Z.of_nat n - Z.of_nat i) r.
Proof using Hz Hy Hx Hwy Hwx.
  induction n as [|n IH]; intros k rs Ho1 Ho2 Hrs Hk Hl; cbn [earlier_stages].
  - exists rs. split; [reflexivity|]. split; [reflexivity|]. intros i r E. replace (k + Z.of_nat 0 - Z.of_nat i) with (k - Z.of_nat i) by lia. now apply Hrs.
  - destruct rs as [|r rs]; [cbn in Hl; lia|]. cbn [hd]. pose proof (Hrs 0%nat r eq_refl) as H0. replace (k - Z.of_nat 0) with k in H0 by lia.
    destruct (stage_expand oy ox k r Ho1 Ho2 Hk H0) as (r' & E & S'). rewrite E. cbn [obind].
    destruct (IH (k + 1) (r' :: r :: rs) Ho1 Ho2) as (rs' & E' & L' & I').
    + intros [|i] q Eq; [cbn in Eq; injection Eq as <-; now rewrite Z.sub_0_r|]. cbn [nth_error] in Eq.
      replace (k + 1 - Z.of_nat (S i)) with (k - Z.of_nat i) by lia. now apply Hrs.
    + lia.
    + cbn [length] in *. lia.
    + exists rs'. split; [exact E'|]. split; [rewrite L'; cbn [length]; lia|]. intros i q Eq.
      replace (k + Z.of_nat (S n) - Z.of_nat i) with (k + 1 + Z.of_nat n - Z.of_nat i) by lia. now apply I'.
Qed.

Lemma box_region org dms : length org = 3%nat -> length dms = 3%nat -> Forall (fun n => 0 < n) dms ->
  exists r, reg_insert_box (box_fuel (mkBox org dms)) (reg_empty 3) (mkBox org dms) = Some r /\ rvalid 2 r /\
    forall c, length c = 3%nat -> (rin r c <-> in_box (mkBox org dms) c).
Proof.
  intros Lo Ld Hp. destruct (insert_box_valid 2 (reg_empty 3) (mkBox org dms) (box_fuel (mkBox org dms)) (rvalid_empty 2) Lo Ld) as (r & E & V & H).
  - destruct (coord3 org Lo) as (o1 & o2 & o3 & ->). destruct (coord3 dms Ld) as (n1 & n2 & n3 & ->).
    apply Forall_cons_iff in Hp. destruct Hp as [P1 Hp]. apply Forall_cons_iff in Hp. destruct Hp as [P2 Hp].
    unfold box_streakable, origins_box, box_regular. cbn. repeat split; try lia. repeat constructor; lia.
  - destruct (coord3 dms Ld) as (n1 & n2 & n3 & ->). apply Forall_cons_iff in Hp. destruct Hp as [P1 Hp]. apply Forall_cons_iff in Hp. destruct Hp as [P2 Hp].
    apply Forall_cons_iff in Hp. destruct Hp as [P3 _]. unfold box_fuel, origins_box. cbn [b_dim removelast app prod fold_right]. cbn. nia.
  - exists r. split; [exact E|]. split; [exact V|]. intros c Hc. rewrite H by exact Hc.
    assert (~ rin (reg_empty 3) c) by (now apply (rin_empty 2)). tauto.
Qed.

Lemma stage_regions_spec len oy ox : 0 <= oy < dy -> 0 <= ox < dx -> (1 <= len)%nat ->
  exists rs, stage_regions dim wdim len oy ox = Some rs /\ length rs = len /\
    forall i r, nth_error rs i = Some r -> stage_cells oy ox (Z.of_nat len - 1 - Z.of_nat i) r.
Proof using Hz Hy Hx Hwy Hwx.
  intros Ho1 Ho2 Hl. destruct len as [|n]; [lia|]. unfold stage_regions. cbn [fst snd wdim].
  destruct (box_region [0; oy; ox] [dim_z dim; wy; wx]) as (r & E & V & H); [reflexivity|reflexivity|repeat constructor; assumption|].
  rewrite E. cbn [obind]. destruct (cube_expand dz dy dx r 0 Hz Hy Hx V ltac:(lia)) as (r0 & E0 & V0 & H0). unfold dim at 1. rewrite E0. cbn [obind].
  destruct (earlier_spec oy ox n 0 [r0] Ho1 Ho2) as (rs & Er & Lr & Ir); [|lia|reflexivity|].
  - intros [|[|i]] q Eq; cbn in Eq; try discriminate Eq. injection Eq as <-. split; [exact V0|]. intros z y x. rewrite H0 by reflexivity. unfold grown. split.
    + intros (Hg & c0 & Hc & Hr & Hn). destruct (coord3 c0 Hc) as (z0 & y0 & x0 & ->). apply H in Hr; [|reflexivity]. cbn in Hg, Hr, Hn. lia.
    + intros H1. split; [cbn; lia|]. exists [z; y; x]. split; [reflexivity|]. split; [apply H; [reflexivity|cbn; lia]|cbn; lia].
  - exists rs. split; [exact Er|]. split; [rewrite Lr; cbn; lia|]. intros i q Eq.
    replace (Z.of_nat (S n) - 1 - Z.of_nat i) with (0 + Z.of_nat n - Z.of_nat i) by lia. now apply Ir.
Qed.

Lemma wavefront_frames_spec len oy ox : 0 <= oy < dy -> 0 <= ox < dx -> (1 <= len)%nat ->
  exists frames, wavefront_frames dim wdim len oy ox = Some frames /\ length frames = Z.to_nat (dz + 1) /\
    forall index i, 0 <= index <= dz -> (i < len)%nat ->
      exists fs frame, vec_get frames index = Some fs /\ length fs = len /\ nth_error fs i = Some frame /\ rvalid 2 frame /\
        forall z y x, rin frame [z; y; x] <-> z = index /\ z < dz /\ grown oy wy dy (Z.of_nat len - 1 - Z.of_nat i) y /\ grown ox wx dx (Z.of_nat len - 1 - Z.of_nat i) x.
Proof using Hz Hy Hx Hwy Hwx.
  intros Ho1 Ho2 Hl. destruct (stage_regions_spec len oy ox Ho1 Ho2 Hl) as (rs & E & L & I). unfold wavefront_frames. rewrite E. cbn [obind].
  assert (Hrow : forall index, exists fs, obind (index_mask dim index) (fun mask => omap (fun r => reg_isect r mask) rs) = Some fs /\ length fs = len /\
    forall i, (i < len)%nat -> exists frame, nth_error fs i = Some frame /\ rvalid 2 frame /\
      forall z y x, rin frame [z; y; x] <-> z = index /\ 0 <= z < dz /\ grown oy wy dy (Z.of_nat len - 1 - Z.of_nat i) y /\ grown ox wx dx (Z.of_nat len - 1 - Z.of_nat i) x).
  { intros index. unfold index_mask. destruct (box_region [index; 0; 0] [1; dim_y dim; dim_x dim]) as (m & Em & Vm & Hm); [reflexivity|reflexivity|repeat constructor; cbn; lia|].
    rewrite Em. cbn [obind]. destruct (omap_def (fun r => reg_isect r m) rs) as (fs & Ef & Lf).
    { intros r Hr. apply In_nth_error in Hr. destruct Hr as [i Hi]. destruct (I i r Hi) as [Vr _]. destruct (reg_isect_valid 2 r m Vr Vm) as (q & Eq & _). now exists q. }
    exists fs. split; [exact Ef|]. split; [congruence|]. intros i Hi.
    destruct (nth_error rs i) as [r|] eqn:Er; [|apply nth_error_None in Er; lia]. destruct (I i r Er) as [Vr Hr].
    destruct (reg_isect_valid 2 r m Vr Vm) as (q & Eq & Vq & Hq). exists q. split; [rewrite (omap_nth _ _ _ _ _ Ef Er); exact Eq|]. split; [exact Vq|].
    intros z y x. rewrite Hq, Hr, Hm by reflexivity. unfold grown. cbn. change (dim_y dim) with dy. change (dim_x dim) with dx. split; intros; lia. }
  destruct (omap_def (fun index => obind (index_mask dim index) (fun mask => omap (fun r => reg_isect r mask) rs)) (zrange 0 (dim_z dim + 1))) as (frames & Ef & Lf).
  { intros index _. destruct (Hrow index) as (fs & Efs & _). now exists fs. }
  exists frames. split; [exact Ef|]. change (dim_z dim) with dz in *. split; [rewrite Lf; unfold zrange; rewrite map_length, seq_length; lia|].
  intros index i Hi Hlen. destruct (Hrow index) as (fs & Efs & Lfs & Hfs). destruct (Hfs i Hlen) as (frame & En & Vn & Hn).
  exists fs, frame. split.
  - unfold vec_get. assert (index <? 0 = false) as -> by lia.
    rewrite (omap_nth _ _ _ (Z.to_nat index) index Ef); [exact Efs|]. rewrite zrange_nth_error by lia. reflexivity.
  - split; [exact Lfs|]. split; [exact En|]. split; [exact Vn|]. intros z y x. rewrite Hn. split; intros (A & B & D & E'); (split; [lia|]); (split; [lia|]); auto.
Qed.
End Frames.

(** ** Wavefronts *)

Lemma frames_extent_spec n w : 0 < n -> 0 < w -> 0 < frames_extent n w /\ (forall k, 0 <= k < frames_extent n w -> 0 <= k * w < n) /\
  forall x, 0 <= x < n -> 0 <= x / w < frames_extent n w.
Proof.
  intros Hn Hw. unfold frames_extent. rewrite Z.quot_div_nonneg, Z.rem_mod_nonneg by lia.
  pose proof (Z.div_mod n w ltac:(lia)) as E. pose proof (Z.mod_pos_bound n w Hw) as B.
  set (q := n / w) in *. set (r := n mod w) in *. clearbody q r.
  assert (Hq : 0 <= q) by nia.
  destruct (Z.eqb_spec r 0) as [H|H].
  - split; [nia|]. split; [intros k Hk; nia|]. intros x Hx. pose proof (Z.div_mod x w ltac:(lia)) as E1. pose proof (Z.mod_pos_bound x w Hw) as B1.
    set (a := x / w) in *. set (c := x mod w) in *. clearbody a c. nia.
  - split; [nia|]. split; [intros k Hk; nia|]. intros x Hx. pose proof (Z.div_mod x w ltac:(lia)) as E1. pose proof (Z.mod_pos_bound x w Hw) as B1.
    set (a := x / w) in *. set (c := x mod w) in *. clearbody a c. nia.
Qed.

Lemma wavefronts_in dz dy dx wy wx y x : In (y, x) (wavefronts [dz; dy; dx] (wy, wx)) <-> 0 <= y < frames_extent dy wy /\ 0 <= x < frames_extent dx wx.
Proof.
  unfold wavefronts. cbn [frames_dim fst snd dim_y dim_x axis rev app nth]. rewrite in_flat_map. split.
  - intros (y' & H1 & H2). apply in_map_iff in H2. destruct H2 as (x' & E & H2). injection E as <- <-. apply zrange_in in H1. apply zrange_in in H2. now split.
  - intros [H1 H2]. exists y. split; [now apply zrange_in|]. apply in_map_iff. exists x. split; [reflexivity|now apply zrange_in].
Qed.

(** Each row belongs to exactly one wavefront. *)
Lemma wavefront_of n w x : 0 < n -> 0 < w -> 0 <= x < n ->
  forall k, (0 <= k < frames_extent n w /\ grown (k * w) w n 0 x) <-> k = x / w.
Proof.
  intros Hn Hw Hx k. destruct (frames_extent_spec n w Hn Hw) as (_ & _ & H). specialize (H x Hx). unfold grown.
  pose proof (Z.div_mod x w ltac:(lia)) as E. pose proof (Z.mod_pos_bound x w Hw) as B. set (a := x / w) in *. set (c := x mod w) in *. clearbody a c.
  set (e := frames_extent n w) in *. clearbody e. split; [|intros ->; split; [lia|nia]]. intros [H1 H2].
  assert (k * w <= x < k * w + w) by lia. nia.
Qed.

(** ** Updates in place *)

Lemma modify_const {C} (T : place -> C) ops : (forall p h v, In (p, h) ops -> h v = T p) ->
  forall f q, (In q (map fst ops) -> modify f ops q = T q) /\ (~ In q (map fst ops) -> modify f ops q = f q).
Proof.
  intros H f q. split; [|apply modify_other]. revert f. induction ops as [|[p h] ops IH]; intros f Hq; [destruct Hq|].
  change (modify f ((p, h) :: ops) q) with (modify (GridFacts.upd f p (h (f p))) ops q). cbn [map fst] in Hq.
  destruct (in_dec place_dec q (map fst ops)) as [Hi|Hi]; [apply IH; auto; intros; apply H; now right|].
  rewrite modify_other by exact Hi. destruct Hq as [->|Hq]; [|contradiction]. unfold GridFacts.upd. destruct (place_dec q q) as [_|N]; [|now destruct N]. apply H. now left.
Qed.

Lemma van_loop_ext {C} st fn (old : vgrid C) loc loc' locN locN' : st_dim st = 3%nat ->
  (forall c, length c = 3%nat -> loc c = loc' c) -> (forall c, length c = 3%nat -> locN c = locN' c) ->
  forall n spre tpre sx tx g, length spre = 2%nat -> length tpre = 2%nat ->
    van_loop st fn old loc locN n spre tpre sx tx g = van_loop st fn old loc' locN' n spre tpre sx tx g.
Proof.
  intros Hd H1 H2. induction n as [|n IH]; intros spre tpre sx tx g L1 L2; [reflexivity|]. cbn [van_loop].
  assert (Hh : hood_values st (fun f => deref old (loc (zadd (spre ++ [sx]) (fc_coord (st_dim st) f))) 0) =
               hood_values st (fun f => deref old (loc' (zadd (spre ++ [sx]) (fc_coord (st_dim st) f))) 0)).
  { unfold hood_values. apply omap_ext. intros e _. rewrite H1; [reflexivity|]. rewrite Hd. destruct spre as [|? [|? [|? ?]]]; try discriminate L1. reflexivity. }
  rewrite Hh. clear Hh. rewrite H2 by (rewrite app_length; cbn; lia). destruct (hood_values st _) as [vs|]; [|reflexivity]. cbn [obind].
  destruct (deref g _ 0) as [v|]; [|reflexivity]. cbn [obind]. destruct (store g _ 0 _) as [g1|]; [|reflexivity]. cbn [obind]. now apply IH.
Qed.

Lemma run_ext {C} st fn (old : vgrid C) loc loc' locN locN' soff toff : st_dim st = 3%nat -> length soff = 3%nat -> length toff = 3%nat ->
  (forall c, length c = 3%nat -> loc c = loc' c) -> (forall c, length c = 3%nat -> locN c = locN' c) ->
  forall ss g, Forall (fun s => length (s_pre s) = 2%nat /\ s_x s < s_e s) ss ->
    run_bodies (van_body st fn old loc locN soff toff) ss g = run_bodies (van_body st fn old loc' locN' soff toff) ss g.
Proof.
  intros Hd L1 L2 H1 H2. induction ss as [|s ss IH]; intros g Hf; [reflexivity|]. pose proof (Forall_inv Hf) as [F1 _]. cbn [run_bodies].
  assert (E : van_body st fn old loc locN soff toff s g = van_body st fn old loc' locN' soff toff s g).
  { unfold van_body. destruct (move_parts 2 s soff F1 L1) as [-> _]. destruct (move_parts 2 s toff F1 L2) as [_ ->]. cbn [s_pre s_x s_e]. rewrite removelast_last.
    destruct (coord3 soff L1) as (u1 & u2 & u3 & ->). destruct (coord3 toff L2) as (v1 & v2 & v3 & ->). destruct (s_pre s) as [|a [|b [|? ?]]]; try discriminate F1.
    now apply van_loop_ext. }
  rewrite E. clear E. destruct (van_body _ _ _ _ _ _ _ s g) as [g1|]; [|reflexivity]. cbn [obind]. apply IH. exact (Forall_inv_tail Hf).
Qed.

(** ** One plane, one stage *)

Section Plane.
Context {C : Type} (t : topology) (st : stencil) (nanos : nat) (upd : nat -> list C -> C).
Variables (dy dx wy wx : Z).
Hypothesis (Hy : 0 < dy) (Hx : 0 < dx) (Hwy : 0 < wy) (Hwx : 0 < wx) (Ht : length t = 3%nat) (Hst : st_dim st = 3%nat).
Let dim := [1; dy; dx].
Let wdim := (wy, wx).
Hypothesis (Hnb : forall c, in_grid dim c -> Forall (close_by dim) (neighbors st c)).

Let b0 := mkBox [0; 0; 0] dim.

Lemma plane_setup : setup_ok t false b0 [0; 0; 0].
Proof using All.
  unfold setup_ok, b0. cbn [b_origin b_dim dim length]. split; [intros ->; discriminate|]. repeat split; auto; try discriminate. repeat constructor; lia.
Qed.

Definition next_cells (nano : nat) (f : place -> C) (p : place) : C :=
  match p with None => f None | Some c => upd nano (map (fun c' => f (denotes t dim c')) (neighbors st c)) end.

(** A state in which the current grid holds [f], and the next one holds the
    following state for the wavefronts in [ws]. *)
Definition swept (nano step : nat) (f : place -> C) (done : coord -> Prop) (s : cache C) : Prop :=
  ca_nano s = nano /\ ca_step s = step /\ rep dim (ca_cur s) f /\ exists f', rep dim (ca_new s) f' /\ f' None = f None /\
    forall c, in_grid dim c -> done c -> f' (Some c) = next_cells (Nat.modulo nano nanos) f (Some c).

Definition front (w : Z * Z) (c : coord) : Prop := exists y x, c = [0; y; x] /\ grown (fst w * wy) wy dy 0 y /\ grown (snd w * wx) wx dx 0 x.

Lemma close_zero c : length c = 3%nat -> zsub c [0; 0; 0] = c.
Proof. intros H. exact (zsub_zeros dim c H). Qed.

Lemma close3 c : close_by dim c -> length c = 3%nat.
Proof. destruct c as [|z [|y [|x [|? ?]]]]; cbn; intros H; try reflexivity; exfalso; tauto. Qed.

Lemma grid3 c : in_grid dim c -> exists y x, c = [0; y; x] /\ 0 <= y < dy /\ 0 <= x < dx.
Proof.
  intros H. pose proof (in_grid_length _ _ H) as L. destruct (coord3 c L) as (z & y & x & ->). cbn in H. exists y, x. split; [f_equal; lia|lia].
Qed.

Lemma den0 c : length c = 3%nat -> ddenotes t false b0 [0; 0; 0] c = denotes t dim c.
Proof. intros H. unfold ddenotes. cbn [b_origin b_dim b0]. now rewrite close_zero. Qed.

Lemma wavefront_swept nano step f done w s : In w (wavefronts dim wdim) -> swept nano step f done s ->
  exists s', update_wavefront t st nanos upd dim wdim 1 w s = Some s' /\ swept nano step f (fun c => done c \/ front w c) s'.
Proof using All.
  intros Hw (S1 & S2 & S3 & f' & S4 & S5 & S6). destruct w as [ky kx]. apply wavefronts_in in Hw. destruct Hw as [W1 W2].
  destruct (frames_extent_spec dy wy Hy Hwy) as (_ & K1 & _). destruct (frames_extent_spec dx wx Hx Hwx) as (_ & K2 & _). specialize (K1 ky W1). specialize (K2 kx W2).
  unfold update_wavefront. cbn [fst snd wdim]. change (dim_z dim) with 1.
  destruct (wavefront_frames_spec 1 dy dx wy wx ltac:(lia) Hy Hx Hwy Hwx 1 (ky * wy) (kx * wx) K1 K2 ltac:(lia)) as (frames & Ef & _ & Hf).
  destruct (Hf 0 0%nat ltac:(lia) ltac:(lia)) as (fs & frame & E1 & _ & E2 & Vf & Hfr). clear Hf. change [1; dy; dx] with dim in Ef. change (wy, wx) with wdim in Ef. rewrite Ef. cbn [obind].
  change (zrange 0 (1 + 2 * Z.of_nat 1 - 2)) with [0]. cbn [ofold]. change (stages_due 1 1 0) with (0%nat, 1%nat). cbv iota beta.
  unfold pipelined_update. change (seq 0 (1 - 0)) with [0%nat]. cbn [ofold]. unfold stage_update. change (0 - 2 * Z.of_nat 0) with 0. cbn [Nat.eqb Nat.sub andb].
  change (dim_z dim) with 1. change (1 <=? 0) with false. cbn [obind]. rewrite E1. cbn [obind]. rewrite E2. cbn [obind ca_nano ca_cur ca_new ca_buf ca_step].
  rewrite Nat.add_0_r, S1. unfold frame_update. destruct (streaks_valid 2 frame Vf) as (ss & Hok & _ & Es & _ & _). rewrite Es. cbn [obind].
  destruct (work_order_spec 2 frame ss Vf (order_streaks frame ss ss Es (Permutation_refl ss))) as (Fs & _ & Hin).
  assert (Hcell : forall c, inr 2 frame c <-> front (ky, kx) c).
  { intros c. unfold inr, front. cbn [fst snd]. split.
    - intros [L R]. destruct (coord3 c L) as (z & y & x & ->). apply Hfr in R. destruct R as (R1 & R2 & R3 & R4). exists y, x. subst z. now split.
    - intros (y & x & -> & R1 & R2). split; [reflexivity|]. apply Hfr. split; [reflexivity|]. split; [lia|]. now split. }
  assert (Hfg : forall c, front (ky, kx) c -> in_grid dim c) by (intros c (y & x & -> & R1 & R2); unfold grown in *; cbn in *; lia).
  set (d := mkDGrid (ca_cur s) [0; 0; 0] [0; 0; 0]). set (dn := mkDGrid (ca_new s) [0; 0; 0] [0; 0; 0]).
  assert (Rd : drep b0 [0; 0; 0] d f) by (split; [reflexivity|]; split; [reflexivity|exact S3]).
  assert (Rn : drep b0 [0; 0; 0] dn f') by (split; [reflexivity|]; split; [reflexivity|exact S4]).
  rewrite (run_ext st _ (ca_cur s) (grid_loc t (ca_cur s)) (dg_loc t false d) (grid_loc t (ca_new s)) (dg_loc t false dn)); auto.
  2:{ intros c L. unfold dg_loc, dg_coord. cbn [d d_grid d_org]. now rewrite close_zero. }
  2:{ intros c L. unfold dg_loc, dg_coord. cbn [dn d_grid d_org]. now rewrite close_zero. }
  assert (Hz : forall c, length c = 3%nat -> zadd c [0; 0; 0] = c).
  { intros c L. destruct (coord3 c L) as (z & y & x & ->). cbn. f_equal; [lia|]. f_equal; [lia|]. f_equal. lia. }
  destruct (run_spec st (fun vs _ => upd (Nat.modulo nano nanos) vs) t false b0 [0; 0; 0] plane_setup d f Rd false b0 [0; 0; 0] plane_setup dn f' Rn 2 Ht [0; 0; 0] [0; 0; 0] eq_refl eq_refl ss (ca_new s) f' Fs S4) as (g' & Eg & Rg).
  { apply Forall_forall. intros c Hc. apply Hin, Hcell in Hc. pose proof (Hfg c Hc) as Hg. pose proof (in_grid_length _ _ Hg) as L. rewrite Hz by exact L. split.
    - specialize (Hnb c Hg). eapply Forall_impl; [|exact Hnb]. intros c' Hc'. split; [rewrite Ht; now apply close3|]. cbn [b_origin b_dim b0]. rewrite close_zero by now apply close3. exact Hc'.
    - split; [rewrite Ht; exact L|]. cbn [b_origin b_dim b0]. rewrite close_zero by exact L. apply in_grid_close; [repeat constructor; lia|exact Hg]. }
  change (d_grid d) with (ca_cur s) in Eg. rewrite Eg. cbn [option_map obind]. eexists. split; [reflexivity|].
  split; [reflexivity|]. split; [exact S2|]. split; [exact S3|]. eexists. split; [exact Rg|].
  set (ops := map _ _).
  assert (Hops : forall p h v, In (p, h) ops -> exists c, front (ky, kx) c /\ p = Some c /\ h v = next_cells (Nat.modulo nano nanos) f p).
  { intros p h v H. unfold ops in H. apply in_map_iff in H. destruct H as (c & E & Hc). apply Hin, Hcell in Hc. pose proof (Hfg c Hc) as Hg. pose proof (in_grid_length _ _ Hg) as L.
    injection E as <- <-. exists c. split; [exact Hc|]. rewrite Hz by exact L. rewrite den0 by exact L. rewrite denotes_self by (auto; try (rewrite Ht; reflexivity); repeat constructor; lia).
    split; [reflexivity|]. cbn [next_cells]. f_equal. apply map_ext_in. intros c' Hc'. specialize (Hnb c Hg). rewrite Forall_forall in Hnb. rewrite den0; [reflexivity|]. now apply close3, Hnb. }
  assert (Hp : forall p, In p (map fst ops) <-> exists c, p = Some c /\ front (ky, kx) c).
  { intros p. split.
    - intros H. apply in_map_iff in H. destruct H as ([p' h] & <- & H). destruct (Hops p' h (f None) H) as (c & A1 & A2 & _). now exists c.
    - intros (c & -> & Hc). pose proof (Hfg c Hc) as Hg. pose proof (in_grid_length _ _ Hg) as L. apply in_map_iff. unfold ops. eexists. split; [|apply in_map_iff; exists c; split; [reflexivity|apply Hin, Hcell; exact Hc]].
      cbn [fst]. rewrite Hz by exact L. rewrite den0 by exact L. apply denotes_self; auto; try (rewrite Ht; reflexivity). repeat constructor; lia. }
  destruct (modify_const (next_cells (Nat.modulo nano nanos) f) ops ltac:(intros p h v H; now destruct (Hops p h v H) as (_ & _ & _ & A)) f' None) as [_ Q].
  split.
  { rewrite Q; [exact S5|]. rewrite Hp. intros (c & H & _). discriminate H. }
  intros c Hg Hc. clear Q. destruct (modify_const (next_cells (Nat.modulo nano nanos) f) ops ltac:(intros p h v H; now destruct (Hops p h v H) as (_ & _ & _ & A)) f' (Some c)) as [Q1 Q2].
  destruct (in_dec place_dec (Some c) (map fst ops)) as [Hi|Hi]; [now apply Q1|]. rewrite Q2 by exact Hi. destruct Hc as [Hc|Hc]; [now apply S6|].
  exfalso. apply Hi. apply Hp. now exists c.
Qed.

Lemma sweep_swept nano step f ws : incl ws (wavefronts dim wdim) -> forall done s, swept nano step f done s ->
  exists s', ofold (update_wavefront t st nanos upd dim wdim 1) ws s = Some s' /\ swept nano step f (fun c => done c \/ exists w, In w ws /\ front w c) s'.
Proof using All.
  induction ws as [|w ws IH]; intros Hi done s Hs.
  - exists s. split; [reflexivity|]. destruct Hs as (S1 & S2 & S3 & f' & S4 & S5 & S6). split; [exact S1|]. split; [exact S2|]. split; [exact S3|].
    exists f'. split; [exact S4|]. split; [exact S5|]. intros c Hg [H|(w & [] & _)]. now apply S6.
  - destruct (wavefront_swept nano step f done w s (Hi w (or_introl eq_refl)) Hs) as (s1 & E1 & Q1). cbn [ofold]. rewrite E1. cbn [obind].
    destruct (IH (fun v Hv => Hi v (or_intror Hv)) _ s1 Q1) as (s' & E & (S1 & S2 & S3 & f' & S4 & S5 & S6)). exists s'. split; [exact E|].
    split; [exact S1|]. split; [exact S2|]. split; [exact S3|]. exists f'. split; [exact S4|]. split; [exact S5|]. intros c Hg Hc. apply S6; [exact Hg|].
    destruct Hc as [Hc|(v & [<-|Hv] & Hc)]; auto. right. now exists v.
Qed.

Definition ready (nano step : nat) (f : place -> C) (s : cache C) : Prop :=
  ca_nano s = nano /\ ca_step s = step /\ rep dim (ca_cur s) f /\ exists f', rep dim (ca_new s) f' /\ f' None = f None.

Lemma hop_ready nano step f s : ready nano step f s ->
  exists s', cache_hop t st nanos upd dim wdim 1 s = Some s' /\
    ready (Nat.modulo (nano + 1) nanos) (step + Nat.div (nano + 1) nanos) (next_cells (Nat.modulo nano nanos) f) s'.
Proof using All.
  intros (S1 & S2 & S3 & f' & S4 & S5).
  destruct (sweep_swept nano step f (wavefronts dim wdim) (incl_refl _) (fun _ => False) s) as (s1 & E & (Q1 & Q2 & Q3 & f1 & Q4 & Q5 & Q6)).
  { split; [exact S1|]. split; [exact S2|]. split; [exact S3|]. exists f'. split; [exact S4|]. split; [exact S5|]. now intros c _ []. }
  unfold cache_hop. rewrite E. cbn [option_map]. eexists. split; [reflexivity|]. split; [cbn [ca_nano]; now rewrite Q1|]. split; [cbn [ca_step]; now rewrite Q1, Q2|].
  cbn [ca_cur ca_new]. split.
  - destruct Q4 as (R1 & R2 & R3 & R4). split; [exact R1|]. split; [exact R2|]. split; [cbn [next_cells]; congruence|]. intros c Hg. rewrite R4 by exact Hg. f_equal.
    apply Q6; [exact Hg|]. right. destruct (grid3 c Hg) as (y & x & -> & By & Bx).
    destruct (proj2 (wavefront_of dy wy y Hy Hwy By (y / wy)) eq_refl) as [A1 A2]. destruct (proj2 (wavefront_of dx wx x Hx Hwx Bx (x / wx)) eq_refl) as [A3 A4].
    exists (y / wy, x / wx). split; [now apply wavefronts_in|]. exists y, x. now split.
  - exists f. split; [exact Q3|reflexivity].
Qed.

Hypothesis (Hnanos : (1 <= nanos)%nat).
Variables (init : place -> C) (start : nat).
Let cells := world t dim st nanos upd init.

Definition progress (n : nat) (s : cache C) : Prop := ready (Nat.modulo n nanos) (start + Nat.div n nanos) (cells n) s.

Lemma hop_progress n s : progress n s -> exists s', cache_hop t st nanos upd dim wdim 1 s = Some s' /\ progress (S n) s'.
Proof using All.
  intros H. destruct (hop_ready _ _ _ _ H) as (s' & E & (Q1 & Q2 & Q3 & f' & Q4 & Q5)). exists s'. split; [exact E|].
  assert (Hm : Nat.modulo (Nat.modulo n nanos + 1) nanos = Nat.modulo (S n) nanos).
  { rewrite Nat.add_mod_idemp_l by lia. f_equal. lia. }
  assert (Hd : (start + n / nanos + (n mod nanos + 1) / nanos = start + S n / nanos)%nat).
  { assert (E1 : (S n = (n mod nanos + 1) + (n / nanos) * nanos)%nat) by (pose proof (Nat.div_mod n nanos ltac:(lia)); lia).
    rewrite E1. rewrite Nat.div_add by lia. lia. }
  split; [now rewrite <- Hm|]. split; [now rewrite <- Hd|]. rewrite Nat.mod_mod in Q3, Q5 by lia. split.
  - eapply rep_ext; [exact Q3|]. intros [c|]; [reflexivity|]. cbn [next_cells]. unfold cells. now destruct n.
  - exists f'. split; [exact Q4|]. rewrite Q5. cbn [next_cells]. unfold cells. now destruct n.
Qed.

Lemma loop_progress last k : forall n s fuel, progress n s -> (n + k = nanos * (last - start))%nat -> (k <= fuel)%nat ->
  exists s', cache_loop t st nanos upd dim wdim 1 fuel last s = Some s' /\ progress (nanos * (last - start)) s'.
Proof using All.
  induction k as [|k IH]; intros n s fuel H En Hf.
  - assert (n = nanos * (last - start))%nat as -> by lia. exists s. split; [|exact H]. pose proof H as (_ & H2 & _).
    assert (E : Nat.ltb (ca_step s) last = false).
    { apply Nat.ltb_ge. rewrite H2. rewrite Nat.mul_comm, Nat.div_mul by lia. lia. }
    destruct fuel; cbn [cache_loop]; now rewrite E.
  - assert (E : Nat.ltb (ca_step s) last = true).
    { pose proof H as (_ & H2 & _). apply Nat.ltb_lt. rewrite H2. assert (n / nanos < last - start)%nat; [|lia]. apply Nat.div_lt_upper_bound; lia. }
    destruct fuel as [|fuel]; [lia|]. cbn [cache_loop]. rewrite E. destruct (hop_progress n s H) as (s1 & E1 & H1). rewrite E1. cbn [obind].
    apply (IH (S n)); auto; lia.
Qed.
End Plane.

(** ** Counting time steps *)

Section Steps.
Context {C : Type} (t : topology) (st : stencil) (nanos : nat) (upd : nat -> list C -> C).
Variables (dim : coord) (wdim : Z * Z) (len : nat).

Definition clock (s : cache C) : nat * nat := (ca_step s, ca_nano s).

Lemma ofold_inv {S A B} (f : A -> S -> option S) (v : S -> B) : (forall a s s', f a s = Some s' -> v s' = v s) ->
  forall l s s', ofold f l s = Some s' -> v s' = v s.
Proof.
  intros H. induction l as [|a l IH]; intros s s' E; [now injection E as <-|]. cbn [ofold] in E. destruct (f a s) as [s1|] eqn:E1; [|discriminate E].
  cbn [obind] in E. rewrite (IH s1 s' E). eapply H; exact E1.
Qed.

Lemma stage_clock frames index first i s s' : stage_update t st nanos upd dim len frames index first i s = Some s' -> clock s' = clock s.
Proof.
  unfold stage_update. intros E. destruct (if Nat.eqb i 0 then _ else _) as [a|]; [|discriminate E]. cbn [obind] in E.
  destruct (if Nat.eqb i (len - 1) then Some _ else _) as [b|]; [|discriminate E]. cbn [obind] in E.
  destruct (vec_get frames _) as [fs|]; [|discriminate E]. cbn [obind] in E. destruct (nth_error fs i) as [fr|]; [|discriminate E]. cbn [obind] in E.
  destruct (Nat.eqb i (len - 1)); (destruct (frame_update _ _ _ _ _ _ _ _ _ _ _) as [g|]; [|discriminate E]); cbn [option_map] in E; injection E as <-; reflexivity.
Qed.

Lemma wavefront_clock w s s' : update_wavefront t st nanos upd dim wdim len w s = Some s' -> clock s' = clock s.
Proof.
  unfold update_wavefront. intros E. destruct (wavefront_frames _ _ _ _ _) as [frames|]; [|discriminate E]. cbn [obind] in E.
  apply (ofold_inv _ clock) in E; [exact E|]. intros index a a' H. destruct (stages_due _ _ _) as [first last]. unfold pipelined_update in H.
  apply (ofold_inv _ clock) in H; [exact H|]. intros i q q'. apply stage_clock.
Qed.

Hypothesis (Hnanos : (1 <= nanos)%nat) (Hlen : (1 <= len)%nat).

Lemma hop_clock s s' : cache_hop t st nanos upd dim wdim len s = Some s' ->
  (ca_step s' * nanos + ca_nano s' = ca_step s * nanos + ca_nano s + len)%nat /\ (ca_nano s' < nanos)%nat.
Proof using Hnanos Hlen.
  unfold cache_hop. destruct (ofold _ _ s) as [s1|] eqn:E; [|discriminate]. intros H. injection H as <-. apply (ofold_inv _ clock) in E; [|intros; eapply wavefront_clock; eassumption].
  injection E as E1 E2. cbn [ca_step ca_nano]. rewrite E1, E2. split; [|apply Nat.mod_upper_bound; lia].
  pose proof (Nat.div_mod (ca_nano s + len) nanos ltac:(lia)). nia.
Qed.

Lemma loop_clock last fuel : forall s s', (ca_nano s < nanos)%nat -> cache_loop t st nanos upd dim wdim len fuel last s = Some s' ->
  (last <= ca_step s' /\ ca_nano s' < nanos)%nat /\ exists k, (ca_step s' * nanos + ca_nano s' = ca_step s * nanos + ca_nano s + k * len)%nat /\
    (k = 0%nat \/ (1 <= k /\ ca_step s * nanos + ca_nano s + (k - 1) * len < last * nanos)%nat).
Proof using Hnanos Hlen.
  induction fuel as [|fuel IH]; intros s s' Hs E; cbn [cache_loop] in E; destruct (Nat.ltb_spec (ca_step s) last) as [H|H]; try discriminate E.
  - injection E as <-. split; [split; [exact H|exact Hs]|]. exists 0%nat. split; [lia|now left].
  - destruct (cache_hop _ _ _ _ _ _ _ s) as [s1|] eqn:E1; [|discriminate E]. cbn [obind] in E. destruct (hop_clock s s1 E1) as [H1 H2].
    destruct (IH s1 s' H2 E) as (H3 & k & H4 & H5). split; [exact H3|]. exists (S k). split; [lia|]. right. split; [lia|].
    destruct H5 as [->|[H5 H6]]; [cbn; nia|]. replace (S k - 1)%nat with k by lia. assert (k * len = (k - 1) * len + len)%nat by nia. lia.
  - injection E as <-. split; [split; [exact H|exact Hs]|]. exists 0%nat. split; [lia|now left].
Qed.
End Steps.
