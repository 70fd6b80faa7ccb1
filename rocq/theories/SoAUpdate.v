(** Updates of SoAGrid: cells see their neighbors. *)
From Verif Require Import Base ListFacts RegionSpec RegionModel RegionRep RegionIterModel RegionStreaks RegionOpsModel HaloSpec
  CoordModel CoordSpec CoordFacts TopologyFacts PatchModel ConfigFacts GridModel GridSpec GridFacts DisplacedFacts GridReach SellFacts
  StencilModel StencilSpec StencilProps UpdateModel UpdateSpec UpdateFacts SoAModel SoASpec SoAFacts SoARep SoATransfer.

(** ** Neighbors *)

Definition lo_of (t : topology) (dims c : coord) (i : nat) : Z := if wraps_axis t i && (axis i c =? 0) then axis i dims else 0.
Definition hi_of (t : topology) (dims c : coord) (i : nat) : Z := if wraps_axis t i && (axis i c =? axis i dims - 1) then - axis i dims else 0.
Definition sides_of (t : topology) (dims c : coord) : sides :=
  mkSides (lo_of t dims c 0) (hi_of t dims c 0) (lo_of t dims c 1) (hi_of t dims c 1) (lo_of t dims c 2) (hi_of t dims c 2).

Lemma axis_wrap n r f : 0 <= r < n -> Z.abs f <= 1 ->
  0 + r + f + ((if f <? 0 then if r =? 0 then n else 0 else 0) + (if f >? 0 then if r =? n - 1 then - n else 0 else 0)) = (r + f) mod n.
Proof.
  intros Hr Hf. assert (f = -1 \/ f = 0 \/ f = 1) as [-> | [-> | ->]] by lia; cbn -[Z.add Z.sub Z.modulo].
  - destruct (Z.eqb_spec r 0) as [->|].
    + rewrite <- (Z.mod_unique_pos (0 + -1) n (-1) (n - 1)); lia.
    + rewrite Z.mod_small; lia.
  - rewrite Z.mod_small; lia.
  - destruct (Z.eqb_spec r (n - 1)) as [->|].
    + rewrite <- (Z.mod_unique_pos (n - 1 + 1) n 1 0); lia.
    + rewrite Z.mod_small; lia.
Qed.

(** Where the neighbor of a cell is found along an axis *)
Definition nb (w : bool) (R n r f : Z) : Z := if w then (r + f) mod n else R + r + f.

Lemma nb_axis (w : bool) R n r f : 0 <= r < n -> Z.abs f <= R -> (w = true -> R <= 1) ->
  (if w then 0 else R) + r + f + ((if f <? 0 then if w && (r =? 0) then n else 0 else 0) + (if f >? 0 then if w && (r =? n - 1) then - n else 0 else 0)) = nb w R n r f.
Proof.
  intros Hr Hf Hw. unfold nb. destruct w; cbn [andb].
  - apply axis_wrap; [assumption|]. specialize (Hw eq_refl). lia.
  - destruct (f <? 0), (f >? 0); lia.
Qed.

Lemma nb_range (w : bool) R n r f : 0 <= r < n -> Z.abs f <= R -> 0 <= nb w R n r f < (if w then n else n + 2 * R).
Proof. intros Hr Hf. unfold nb. destruct w; [apply Z.mod_pos_bound; lia|lia]. Qed.

Lemma nb_place (w : bool) R n r f : 0 < n -> (0 <=? nb w R n r f - (if w then 0 else R)) && (nb w R n r f - (if w then 0 else R) <? n) = w || ((0 <=? r + f) && (r + f <? n)).
Proof.
  intros Hn. unfold nb. destruct w; cbn [orb].
  - pose proof (Z.mod_pos_bound (r + f) n Hn) as Hb. destruct (Z.leb_spec 0 ((r + f) mod n - 0)), (Z.ltb_spec ((r + f) mod n - 0) n); auto; exfalso; clear Hn; lia.
  - replace (R + r + f - R) with (r + f) by lia. reflexivity.
Qed.

Lemma hood_cell st t dims c f : length t = length dims -> (length t <= 3)%nat -> t <> [] -> st_dim st = length t ->
  (In true t -> (st_rad st <= 1)%nat) -> in_grid dims c -> in_stencil st f ->
  exists q, (forall ez ey ex, fn_index [ez; ey; ex] (sides_of t dims c) (gen_index [ez; ey; ex] (emb t (Z.of_nat (st_rad st)) c)) f = gen_index [ez; ey; ex] q) /\
    in_grid (soa_dims t (Z.of_nat (st_rad st)) dims) q /\ pl t (Z.of_nat (st_rad st)) dims q = denotes t dims (zadd c (fc_coord (length t) f)).
Proof.
  intros Hl H3 Hne Hd Hw Hc Hf. destruct (in_stencil_bounds st f Hf) as (B1 & B2 & B3). destruct Hf as [_ Hz]. rewrite Hd in Hz. set (R := Z.of_nat (st_rad st)) in *.
  assert (HwR : forall w, In w t -> w = true -> R <= 1) by (intros w Hi ->; specialize (Hw Hi); unfold R; lia). clear Hw Hd. clearbody R.
  pose proof (in_grid_length _ _ Hc) as Hlc. unfold in_grid in Hc. destruct f as [fx fy fz]. cbn [fc_x fc_y fc_z fc_list] in *.
  d123 t dims; destruct c as [|c0 [|c1 [|c2 [|]]]]; try discriminate; cbn in Hc; cbn [skipn Nat.sub repeat] in Hz.
  - injection Hz as -> ->. exists [0; 0; nb w0 R n0 c0 fx]. unfold fn_index, sides_of, lo_of, hi_of, emb, edge_radii, pad, pl, soa_dims, in_grid, fc_coord, axis, wraps_axis. cbn -[Z.add Z.sub Z.mul Z.leb Z.ltb Z.gtb Z.eqb Z.modulo].
    change (0 <? 0) with false. change (0 >? 0) with false. cbv iota. split; [|split].
    + intros ez ey ex. rewrite <- (nb_axis w0 R n0 c0 fx) by (try lia; apply HwR; now left). ring.
    + pose proof (nb_range w0 R n0 c0 fx ltac:(lia) B1). lia.
    + change ((0 <=? 0 - 0) && (0 - 0 <? 1)) with true. rewrite nb_place by lia. destruct w0; cbn [orb]; [unfold nb; rewrite !Z.sub_0_r; reflexivity|]. replace (nb false R n0 c0 fx - R) with (c0 + fx) by (unfold nb; lia).
      destruct ((0 <=? c0 + fx) && (c0 + fx <? n0)); reflexivity.
  - injection Hz as ->. exists [0; nb w0 R n0 c0 fy; nb w1 R n1 c1 fx]. unfold fn_index, sides_of, lo_of, hi_of, emb, edge_radii, pad, pl, soa_dims, in_grid, fc_coord, axis, wraps_axis. cbn -[Z.add Z.sub Z.mul Z.leb Z.ltb Z.gtb Z.eqb Z.modulo].
    change (0 <? 0) with false. change (0 >? 0) with false. cbv iota. split; [|split].
    + intros ez ey ex. rewrite <- (nb_axis w0 R n0 c0 fy) by (try lia; apply HwR; now left). rewrite <- (nb_axis w1 R n1 c1 fx) by (try lia; apply HwR; right; now left). ring.
    + pose proof (nb_range w0 R n0 c0 fy ltac:(lia) B2). pose proof (nb_range w1 R n1 c1 fx ltac:(lia) B1). lia.
    + change ((0 <=? 0 - 0) && (0 - 0 <? 1)) with true. rewrite !nb_place by lia.
      destruct w1; cbn [orb]; [|replace (nb false R n1 c1 fx - R) with (c1 + fx) by (unfold nb; lia); destruct ((0 <=? c1 + fx) && (c1 + fx <? n1)); [|reflexivity]];
        (destruct w0; cbn [orb]; [unfold nb; rewrite ?Z.sub_0_r; reflexivity|]; replace (nb false R n0 c0 fy - R) with (c0 + fy) by (unfold nb; lia); destruct ((0 <=? c0 + fy) && (c0 + fy <? n0)); unfold nb; rewrite ?Z.sub_0_r; reflexivity).
  - exists [nb w0 R n0 c0 fz; nb w1 R n1 c1 fy; nb w2 R n2 c2 fx]. unfold fn_index, sides_of, lo_of, hi_of, emb, edge_radii, pad, pl, soa_dims, in_grid, fc_coord, axis, wraps_axis. cbn -[Z.add Z.sub Z.mul Z.leb Z.ltb Z.gtb Z.eqb Z.modulo].
    change (0 <? 0) with false. change (0 >? 0) with false. cbv iota. split; [|split].
    + intros ez ey ex. rewrite <- (nb_axis w0 R n0 c0 fz) by (try lia; apply HwR; now left). rewrite <- (nb_axis w1 R n1 c1 fy) by (try lia; apply HwR; right; now left).
      rewrite <- (nb_axis w2 R n2 c2 fx) by (try lia; apply HwR; right; right; now left). ring.
    + pose proof (nb_range w0 R n0 c0 fz ltac:(lia) B3). pose proof (nb_range w1 R n1 c1 fy ltac:(lia) B2). pose proof (nb_range w2 R n2 c2 fx ltac:(lia) B1). lia.
    + change ((0 <=? 0 - 0) && (0 - 0 <? 1)) with true. rewrite !nb_place by lia.
      destruct w2; cbn [orb]; [|replace (nb false R n2 c2 fx - R) with (c2 + fx) by (unfold nb; lia); destruct ((0 <=? c2 + fx) && (c2 + fx <? n2)); [|reflexivity]];
      (destruct w1; cbn [orb]; [|replace (nb false R n1 c1 fy - R) with (c1 + fy) by (unfold nb; lia); destruct ((0 <=? c1 + fy) && (c1 + fy <? n1)); [|reflexivity]]);
        (destruct w0; cbn [orb]; [unfold nb; rewrite ?Z.sub_0_r; reflexivity|]; replace (nb false R n0 c0 fz - R) with (c0 + fz) by (unfold nb; lia); destruct ((0 <=? c0 + fz) && (c0 + fz <? n0)); unfold nb; rewrite ?Z.sub_0_r; reflexivity).
Qed.

(** ** Lines *)

Lemma pad_emb t R c : length c = length t -> (length t <= 3)%nat -> pad 0 (zadd c (skipn (3 - length t) (edge_radii t R))) = emb t R c.
Proof.
  intros Hl H3. unfold emb, edge_radii, pad. destruct t as [|w0 [|w1 [|w2 [|]]]]; cbn [length] in *; try lia; destruct c as [|c0 [|c1 [|c2 [|]]]]; try discriminate; cbn -[Z.add]; leq.
Qed.

Lemma axis_low t R c i : length c = length t -> (length t <= 3)%nat -> wraps_axis t i = true -> axis i (zadd c (skipn (3 - length t) (edge_radii t R))) = axis i c.
Proof.
  intros Hl H3 Hw. unfold edge_radii, pad, axis, wraps_axis in *. destruct t as [|w0 [|w1 [|w2 [|]]]]; cbn [length] in *; try lia; destruct c as [|c0 [|c1 [|c2 [|]]]]; try discriminate;
    destruct i as [|[|[|[|i]]]]; cbn -[Z.add] in *; try discriminate; rewrite Hw; lia.
Qed.

Lemma low_torus n R : skipn (3 - length (torus n)) (edge_radii (torus n) R) = repeat 0 n \/ (3 < n)%nat.
Proof. destruct n as [|[|[|[|n]]]]; [left..|right; lia]; reflexivity. Qed.

Lemma wraps_cube n i : wraps_axis (cube n) i = false.
Proof. unfold wraps_axis, cube. revert i. induction n as [|n IH]; intros i; [now destruct i|]. cbn [repeat]. rewrite repeat_cons, rev_unit. destruct i; [reflexivity|]. cbn [nth]. apply IH. Qed.

Lemma wraps_long t i : (length t <= i)%nat -> wraps_axis t i = false.
Proof. intros H. unfold wraps_axis. apply nth_overflow. now rewrite rev_length. Qed.

Lemma norm_id t topo c : length t = length topo -> allpos topo -> in_grid topo c -> normalize t c topo = c /\ out_of_bounds t c topo = false.
Proof.
  intros Hl Hp Hc. assert (Ho : out_of_bounds t c topo = false).
  { destruct (out_of_bounds t c topo) eqn:Eo; [|reflexivity]. apply denotes_oob in Eo; auto. rewrite denotes_self in Eo by auto. discriminate. }
  split; [|exact Ho]. unfold normalize. rewrite Ho. destruct (denotes_in t topo c Hl Hp (in_grid_close _ _ Hp Hc) Ho) as [E _]. rewrite denotes_self in E by auto. congruence.
Qed.

Lemma oob_cube n : forall c topo, length c = n -> length topo = n -> out_of_bounds (cube n) c topo = false -> in_grid topo c.
Proof.
  induction n as [|n IH]; intros [|x c] [|m topo] H1 H2 H; try discriminate; [exact Logic.I|]. cbn [cube repeat out_of_bounds negb andb] in H. apply orb_false_iff in H. destruct H as [Ha Hb].
  apply in_grid_cons. split; [lia|]. apply IH; auto.
Qed.

Section Line.
Context {C : Type} (t : topology) (st : stencil) (sizes : coord -> option coord).
Context (acc : list fixed) (updc : list C -> C -> C).
Context (Hl3 : (length t <= 3)%nat) (Hne : t <> []) (Hsz : sizes_ok sizes).
Context (Hdim : st_dim st = length t) (Hacc : Forall (in_stencil st) acc) (Hrad : In true t -> (st_rad st <= 1)%nat).
Let R := Z.of_nat (st_rad st).
Context (b : box) (topo : coord) (g : sgrid C) (f : place -> C).
Context (Hld : length (b_dim b) = length t) (Hlo : length (b_origin b) = length t) (Hp : allpos (b_dim b)).
Context (Rg : srep t R sizes b topo g f).
Let dims := b_dim b.
Context (ez ey ex : Z) (Hext : sizes (soa_dims t R dims) = Some [ez; ey; ex]).
Let ext := [ez; ey; ex].

Lemma HR : 0 <= R. Proof using. clear. unfold R. lia. Qed.

Definition vals (c : coord) : list C := map (fun c' => f (denotes t dims c')) (seen t acc c).

Lemma hood_ok c : in_grid dims c ->
  omap (fun e => vec_get (sg_mem g) (fn_index ext (sides_of t dims c) (gen_index ext (emb t R c)) e)) acc = Some (vals c).
Proof using Hl3 Hne Hsz Hdim Hacc Hrad Hld Hlo Hp Rg Hext.
  intros Hc. apply omap_spec. unfold vals, seen. rewrite map_map. pose proof Rg as (_ & _ & _ & _ & _ & ez' & ey' & ex' & F & H6 & H7 & H8). fold dims in H6, H8.
  assert (ez' = ez /\ ey' = ey /\ ex' = ex) as (-> & -> & ->) by (repeat split; congruence).
  destruct (sizes_3 t R sizes Hl3 Hne HR Hsz dims _ (eq_sym Hld) Hp H6) as (ez' & ey' & ex' & gz & gy & gx & Ee & Eg & M1 & M2 & M3). assert (ez' = ez /\ ey' = ey /\ ex' = ex) as (-> & -> & ->) by (repeat split; congruence).
  assert (Hall : forall e, in_stencil st e -> vec_get (sg_mem g) (fn_index ext (sides_of t dims c) (gen_index ext (emb t R c)) e) = Some (f (denotes t dims (zadd c (fc_coord (length t) e))))).
  { intros e He. destruct (hood_cell st t dims c e (eq_sym Hld) Hl3 Hne Hdim Hrad Hc He) as (q & E1 & E2 & E3). fold R in E1, E2, E3. unfold ext. rewrite E1.
    pose proof (H8 q E2) as E4. rewrite Eg in E2. pose proof (in_grid_length _ _ E2) as Hq. destruct q as [|z [|y [|x [|]]]]; try discriminate. unfold in_grid in E2. cbn in E2.
    rewrite (m3_get ez ey ex (sg_mem g) F z y x H7) by lia. f_equal. etransitivity; [exact E4|]. now rewrite <- E3. }
  assert (Hl : forall l, Forall (in_stencil st) l -> Forall2 (fun e v => vec_get (sg_mem g) (fn_index ext (sides_of t dims c) (gen_index ext (emb t R c)) e) = Some v) l
    (map (fun e => f (denotes t dims (zadd c (fc_coord (length t) e)))) l)) by (induction 1; cbn [map]; constructor; auto).
  now apply Hl.
Qed.

(** The writes along a row, from [a] to [z] *)
Definition row_ops (pre preN : coord) (d a z : Z) : list (place * (C -> C)) :=
  map (fun k => (Some (emb t R (preN ++ [k + d])), updc (vals (pre ++ [k])))) (zrange a z).

Lemma line_spec pre preN d sd : length t = S (length pre) -> length t = S (length preN) -> forall n a m F, m3 ext m F ->
  (forall k, a <= k < a + Z.of_nat n -> in_grid dims (pre ++ [k]) /\ in_grid dims (preN ++ [k + d]) /\ sides_of t dims (pre ++ [k]) = sd) ->
  exists m', line_x acc updc ext sd (sg_mem g) n (gen_index ext (emb t R (pre ++ [a]))) (gen_index ext (emb t R (preN ++ [a + d]))) m = Some m' /\
    m3 ext m' (modify F (row_ops pre preN d a (a + Z.of_nat n))).
Proof using Hl3 Hne Hsz Hdim Hacc Hrad Hld Hlo Hp Rg Hext.
  intros Hpre HpreN. destruct (emb_row t R pre Hpre Hl3) as (z & y & r & Er). destruct (emb_row t R preN HpreN Hl3) as (zN & yN & rN & ErN).
  destruct (sizes_3 t R sizes Hl3 Hne HR Hsz dims _ (eq_sym Hld) Hp Hext) as (ez' & ey' & ex' & gz & gy & gx & Ee & Eg & M1 & M2 & M3). assert (ez' = ez /\ ey' = ey /\ ex' = ex) as (-> & -> & ->) by (repeat split; congruence).
  induction n as [|n IH]; intros a m F Rm Hk.
  - exists m. split; [reflexivity|]. unfold row_ops. rewrite zrange_nil by lia. exact Rm.
  - destruct (Hk a ltac:(lia)) as (K1 & K2 & K3). cbn [line_x]. pose proof (hood_ok _ K1) as Hh. rewrite K3 in Hh. rewrite Hh. cbn [obind].
    destruct (emb_in t R dims _ (eq_sym Hld) Hl3 Hne HR K2) as [I1 _]. rewrite ErN in I1. rewrite Eg in I1. unfold in_grid in I1. cbn in I1.
    rewrite ErN. rewrite (m3_get ez ey ex m F _ _ _ Rm) by lia. cbn [obind].
    destruct (m3_set ez ey ex ltac:(lia) ltac:(lia) ltac:(lia) m F zN yN (rN + (a + d)) (updc (vals (pre ++ [a])) (F (Some [zN; yN; rN + (a + d)]))) Rm) as (m1 & E1 & R1); try lia.
    fold ext in E1 |- *. rewrite E1. cbn [obind]. unfold ext. rewrite gen_next. fold ext. replace (rN + (a + d) + 1) with (rN + (a + 1 + d)) by lia. rewrite <- ErN.
    rewrite Er. unfold ext. rewrite gen_next. fold ext. replace (r + a + 1) with (r + (a + 1)) by lia. rewrite <- Er.
    destruct (IH (a + 1) m1 _ R1) as (m' & E' & R'); [intros k Hk'; apply Hk; lia|]. exists m'. split; [exact E'|].
    replace (a + 1 + Z.of_nat n) with (a + Z.of_nat (S n)) in R' by lia. unfold row_ops. rewrite zrange_cons by lia. cbn [map modify fold_left fst snd].
    rewrite ErN. exact R'.
Qed.

Lemma call_spec pre preN d sd a z m F : length t = S (length pre) -> length t = S (length preN) -> m3 ext m F -> a <= z ->
  (forall k, a <= k < z -> in_grid dims (pre ++ [k]) /\ in_grid dims (preN ++ [k + d]) /\ sides_of t dims (pre ++ [k]) = sd) ->
  exists m', call_line acc updc false ext sd (sg_mem g) (gen_index ext (emb t R (pre ++ [z]))) (gen_index ext (emb t R (pre ++ [a])), gen_index ext (emb t R (preN ++ [a + d])), m) =
      Some (gen_index ext (emb t R (pre ++ [z])), gen_index ext (emb t R (preN ++ [z + d])), m') /\
    m3 ext m' (modify F (row_ops pre preN d a z)).
Proof using Hl3 Hne Hsz Hdim Hacc Hrad Hld Hlo Hp Rg Hext.
  intros Hpre HpreN Rm Hle Hk. destruct (emb_row t R pre Hpre Hl3) as (zz & y & r & Er). destruct (emb_row t R preN HpreN Hl3) as (zN & yN & rN & ErN). unfold call_line.
  assert (Eg : gen_index ext (emb t R (pre ++ [z])) - gen_index ext (emb t R (pre ++ [a])) = z - a) by (rewrite !Er; unfold ext; cbn; ring). rewrite Eg.
  destruct (line_spec pre preN d sd Hpre HpreN (Z.to_nat (z - a)) a m F Rm) as (m' & E & R').
  { intros k Hk'. apply Hk. lia. }
  replace (a + Z.of_nat (Z.to_nat (z - a))) with z in R' by lia. exists m'. rewrite E. cbn [option_map]. split; [|exact R']. f_equal. f_equal. f_equal; [lia|].
  rewrite !ErN. unfold ext. cbn -[Z.max]. replace (Z.max 0 (z - a)) with (z - a) by lia. ring.
Qed.

(** ** Streaks *)

Definition in_space (c cN : coord) : Prop :=
  topo = map (fun _ => 0) t \/ (Forall2 Z.le dims topo /\ (t = torus (length t) \/ (t = cube (length t) /\ c = cN))).
Let low := skipn (3 - length t) (edge_radii t R).

Lemma low_length : length low = length t.
Proof using Hl3 Hne.
  clear - Hl3 Hne. unfold low, edge_radii, pad. rewrite skipn_length, app_length, repeat_length, map_length. lia.
Qed.

Lemma zeros_topo : has_topo (map (fun _ => 0) t) = false.
Proof using. clear. unfold has_topo. apply negb_false_iff, forallb_forall. intros x Hx. apply in_map_iff in Hx. destruct Hx as (w & <- & _). reflexivity. Qed.

Lemma torus_low : t = torus (length t) -> forall c, length c = length t -> zadd c low = c.
Proof using Hl3.
  intros Et c Hc. assert (El : low = repeat 0 (length t)).
  { unfold low. destruct (low_torus (length t) R) as [E|E]; [|clear - E Hl3; lia]. rewrite <- Et in E. exact E. }
  rewrite El. apply zadd_zero. clear - Hc. lia.
Qed.

Lemma at_side_spec c cN i (hi : bool) : in_grid dims c -> in_space c cN ->
  at_side t dims topo (zadd c low) i hi = wraps_axis t i && (axis i c =? (if hi then axis i dims - 1 else 0)).
Proof using Hl3 Hne Hsz Hdim Hacc Hrad Hld Hlo Hp Rg Hext.
  intros Hc Hs. pose proof (in_grid_length _ _ Hc) as Hlc. unfold dims in Hlc. assert (Hlct : length c = length t) by (clear - Hlc Hld; lia). clear Hlc.
  unfold at_side. destruct (wraps_axis t i) eqn:Ew; [|now rewrite andb_false_r].
  assert (Hi : (i <? length t)%nat = true).
  { apply Nat.ltb_lt. destruct (Nat.lt_ge_cases i (length t)) as [H|H]; [exact H|]. now rewrite (wraps_long t i H) in Ew. }
  rewrite Hi. cbn [andb].
  assert (E : axis i (if has_topo topo then normalize t (zadd c low) topo else zadd c low) = axis i c).
  { destruct Hs as [->|(Hle & [Et|[Et _]])].
    - rewrite zeros_topo. now apply axis_low.
    - rewrite (torus_low Et c Hlct). pose proof (forall2_length _ _ _ Hle) as Hlt. destruct (norm_id t topo c) as [E _].
      + unfold dims in Hlt. clear - Hlt Hld. lia.
      + now apply (forall2_le_pos dims).
      + now apply (in_grid_le dims).
      + rewrite E. destruct (has_topo topo); reflexivity.
    - rewrite Et, wraps_cube in Ew. discriminate. }
  now rewrite E.
Qed.

Lemma origin_spec c cN : in_grid dims c -> in_grid dims cN -> in_space c cN ->
  let norm := has_topo topo && negb (out_of_bounds t (zadd c low) topo) in
  (if norm then normalize t (zadd c low) topo else zadd c low) = zadd c low /\ (if norm then normalize t (zadd cN low) topo else zadd cN low) = zadd cN low.
Proof using Hl3 Hne Hsz Hdim Hacc Hrad Hld Hlo Hp Rg Hext.
  intros Hc HcN Hs norm. pose proof (in_grid_length _ _ Hc) as Hlc. pose proof (in_grid_length _ _ HcN) as HlcN. unfold dims in Hlc, HlcN.
  assert (Hlct : length c = length t) by (clear - Hlc Hld; lia). assert (HlctN : length cN = length t) by (clear - HlcN Hld; lia). clear Hlc HlcN. unfold norm. clear norm.
  destruct Hs as [->|(Hle & [Et|[Et ->]])].
  - rewrite zeros_topo. split; reflexivity.
  - pose proof (forall2_length _ _ _ Hle) as Hlt. unfold dims in Hlt. assert (Hlt' : length t = length topo) by (clear - Hlt Hld; lia). rewrite !(torus_low Et) by assumption.
    destruct (norm_id t topo c Hlt') as [E _]; [now apply (forall2_le_pos dims)|now apply (in_grid_le dims)|]. destruct (norm_id t topo cN Hlt') as [E' _]; [now apply (forall2_le_pos dims)|now apply (in_grid_le dims)|].
    rewrite E, E'. destruct (_ && _); split; reflexivity.
  - assert (H : (if has_topo topo && negb (out_of_bounds t (zadd cN low) topo) then normalize t (zadd cN low) topo else zadd cN low) = zadd cN low); [|split; exact H].
    pose proof (forall2_length _ _ _ Hle) as Hlt. unfold dims in Hlt. assert (Hlt' : length t = length topo) by (clear - Hlt Hld; lia).
    destruct (has_topo topo); [|reflexivity]. destruct (out_of_bounds t (zadd cN low) topo) eqn:Eo; [reflexivity|]. cbn [negb andb].
    rewrite Et in Eo. apply oob_cube in Eo; [|rewrite zadd_length', low_length by (rewrite low_length; assumption); reflexivity|now symmetry].
    apply norm_id; auto. now apply (forall2_le_pos dims).
Qed.

Lemma sides_snoc pre x x0 : sides_of t dims (pre ++ [x]) =
  mkSides (if wraps_axis t 0 && (x =? 0) then axis 0 dims else 0) (if wraps_axis t 0 && (x =? axis 0 dims - 1) then - axis 0 dims else 0)
    (lo_of t dims (pre ++ [x0]) 1) (hi_of t dims (pre ++ [x0]) 1) (lo_of t dims (pre ++ [x0]) 2) (hi_of t dims (pre ++ [x0]) 2).
Proof using.
  unfold sides_of, lo_of, hi_of, axis. rewrite !rev_unit. reflexivity.
Qed.

Lemma row_ops_app pre preN d a m z : a <= m <= z -> row_ops pre preN d a z = row_ops pre preN d a m ++ row_ops pre preN d m z.
Proof using. intros H. unfold row_ops. rewrite (zrange_app a m z) by (clear - H; lia). apply map_app. Qed.

Lemma call_nop sd stop i iN m : stop <= i -> call_line acc updc false ext sd (sg_mem g) stop (i, iN, m) = Some (i, iN, m).
Proof using.
  clear. intros H. unfold call_line. replace (Z.to_nat (stop - i)) with O by lia. cbn [line_x option_map]. replace (Z.max i stop) with i by lia. replace (iN + Z.max 0 (stop - i)) with iN by lia. reflexivity.
Qed.

Lemma body_spec pre preN d x s offO offN m F : length t = S (length pre) -> length t = S (length preN) -> m3 ext m F ->
  zadd (s_origin s) offO = zadd (pre ++ [x]) low -> zadd (s_origin s) offN = zadd (preN ++ [x + d]) low -> s_x s < s_e s ->
  (forall k, x <= k < x + (s_e s - s_x s) -> in_grid dims (pre ++ [k]) /\ in_grid dims (preN ++ [k + d])) ->
  in_space (pre ++ [x]) (preN ++ [x + d]) ->
  exists m', soa_body t acc updc false ext (sg_mem g) offO offN dims dims topo s m = Some m' /\
    m3 ext m' (modify F (row_ops pre preN d x (x + (s_e s - s_x s)))).
Proof using Hl3 Hne Hsz Hdim Hacc Hrad Hld Hlo Hp Rg Hext.
  intros Hpre HpreN Rm EO EN Hlen Hk Hs. unfold soa_body. set (len := s_e s - s_x s) in *. assert (Hlen' : 0 < len) by (unfold len; lia). clearbody len. clear Hlen.
  destruct (Hk x ltac:(lia)) as [K1 K2]. rewrite EO, EN. rewrite !(at_side_spec _ _ _ _ K1 Hs).
  destruct (origin_spec _ _ K1 K2 Hs) as [O1 O2]. cbv zeta in O1, O2. rewrite O1, O2. fold (lo_of t dims (pre ++ [x]) 1) (lo_of t dims (pre ++ [x]) 2) (hi_of t dims (pre ++ [x]) 1) (hi_of t dims (pre ++ [x]) 2).
  set (T := lo_of t dims (pre ++ [x]) 1). set (B := hi_of t dims (pre ++ [x]) 1). set (S := lo_of t dims (pre ++ [x]) 2). set (N := hi_of t dims (pre ++ [x]) 2).
  assert (Hlc : length (pre ++ [x]) = length t) by (rewrite app_length; cbn; lia). assert (HlcN : length (preN ++ [x + d]) = length t) by (rewrite app_length; cbn; lia).
  unfold low. rewrite (pad_emb t R _ Hlc Hl3), (pad_emb t R _ HlcN Hl3).
  destruct (emb_row t R pre Hpre Hl3) as (zz & yy & r & Er).
  assert (Estop : forall a k, gen_index ext (emb t R (pre ++ [a])) + k = gen_index ext (emb t R (pre ++ [a + k]))) by (intros; rewrite !Er; unfold ext; cbn; ring).
  rewrite !Estop. assert (Esides : forall k, sides_of t dims (pre ++ [k]) = mkSides (if wraps_axis t 0 && (k =? 0) then axis 0 dims else 0) (if wraps_axis t 0 && (k =? axis 0 dims - 1) then - axis 0 dims else 0) T B S N) by (intros k; apply sides_snoc).
  destruct (wraps_axis t 0) eqn:Ew; cbn [andb] in Esides |- *.
  2:{ cbn [obind]. destruct (call_spec pre preN d (mkSides 0 0 T B S N) x (x + len) m F Hpre HpreN Rm) as (m' & E & R'); [lia|intros k Hk'; destruct (Hk k Hk'); auto|].
      fold R. rewrite E. cbn [option_map snd]. eexists. split; [reflexivity|exact R']. }
  rewrite (axis_low t _ _ 0 Hlc Hl3 Ew). assert (Ex : axis 0 (pre ++ [x]) = x) by (unfold axis; now rewrite rev_unit). rewrite Ex.
  set (nx := axis 0 dims) in *.
  assert (Hnx : forall k, in_grid dims (pre ++ [k]) -> 0 <= k < nx).
  { intros k Hi. unfold nx, dims, axis in *. pose proof (in_grid_length _ _ Hi) as Hli. rewrite app_length in Hli. cbn in Hli.
    destruct (snoc_parts (b_dim b) (length pre) 0) as [Eb Lb]; [lia|]. rewrite Eb in Hi |- *. rewrite rev_unit. cbn [nth]. unfold in_grid in Hi. rewrite map_app in Hi. apply inside_app in Hi; [|now rewrite map_length|rewrite map_length; lia]. cbn in Hi. lia. }
  assert (Hx0 : 0 <= x) by (apply (Hnx x); exact K1). assert (HxN : x + len <= nx) by (destruct (Hk (x + len - 1) ltac:(lia)) as [I _]; apply Hnx in I; lia).
  (* the left boundary *)
  assert (Hleft : exists x1 m1, (if x =? 0 then call_line acc updc false ext (mkSides nx (if x + 1 =? nx then - nx else 0) T B S N) (sg_mem g) (gen_index ext (emb t R (pre ++ [x + 1])))
        (gen_index ext (emb t R (pre ++ [x])), gen_index ext (emb t R (preN ++ [x + d])), m) else Some (gen_index ext (emb t R (pre ++ [x])), gen_index ext (emb t R (preN ++ [x + d])), m)) =
      Some (gen_index ext (emb t R (pre ++ [x1])), gen_index ext (emb t R (preN ++ [x1 + d])), m1) /\ m3 ext m1 (modify F (row_ops pre preN d x x1)) /\ x <= x1 <= x + len /\ 0 < x1).
  { destruct (Z.eqb_spec x 0) as [E0|E0].
    - destruct (call_spec pre preN d (mkSides nx (if x + 1 =? nx then - nx else 0) T B S N) x (x + 1) m F Hpre HpreN Rm) as (m1 & E & R1); [lia| |].
      + intros k Hk'. assert (k = x) as -> by lia. destruct (Hk x ltac:(lia)). split; [assumption|]. split; [assumption|]. rewrite Esides.
        replace (x =? 0) with true by (clear - E0; lia). replace (x =? nx - 1) with (x + 1 =? nx) by (clear; destruct (Z.eqb_spec (x + 1) nx), (Z.eqb_spec x (nx - 1)); auto; lia). reflexivity.
      + exists (x + 1), m1. split; [exact E|]. split; [exact R1|]. lia.
    - exists x, m. split; [reflexivity|]. split; [|lia]. unfold row_ops. rewrite zrange_nil by lia. exact Rm. }
  fold R. destruct Hleft as (x1 & m1 & -> & R1 & Hx1 & Hx1'). cbn [obind].
  destruct (Z.eqb_spec (x + len) nx) as [Er'|Er'].
  - (* the right boundary *)
    replace (gen_index ext (emb t R (pre ++ [x + len])) - 1) with (gen_index ext (emb t R (pre ++ [x + len - 1]))) by (rewrite !Er; unfold ext; cbn; ring).
    destruct (Z.eq_dec x1 (x + len)) as [->|Hx2].
    + rewrite call_nop by (rewrite !Er; unfold ext; cbn; lia). cbn [obind]. rewrite call_nop by lia. cbn [option_map snd].
      exists m1. split; [reflexivity|exact R1].
    + destruct (call_spec pre preN d (mkSides 0 0 T B S N) x1 (x + len - 1) m1 _ Hpre HpreN R1) as (m2 & E2 & R2); [lia| |].
      { intros k Hk'. destruct (Hk k ltac:(lia)). split; [assumption|]. split; [assumption|]. rewrite Esides. destruct (Z.eqb_spec k 0), (Z.eqb_spec k (nx - 1)); try lia. reflexivity. }
      rewrite E2. cbn [obind]. destruct (call_spec pre preN d (mkSides 0 (- nx) T B S N) (x + len - 1) (x + len) m2 _ Hpre HpreN R2) as (m' & E3 & R3); [lia| |].
      { intros k Hk'. destruct (Hk k ltac:(lia)). split; [assumption|]. split; [assumption|]. rewrite Esides. destruct (Z.eqb_spec k 0), (Z.eqb_spec k (nx - 1)); try lia. reflexivity. }
      rewrite E3. cbn [option_map snd]. exists m'. split; [reflexivity|]. rewrite (row_ops_app pre preN d x x1 (x + len)), (row_ops_app pre preN d x1 (x + len - 1) (x + len)) by lia. rewrite !modify_app. exact R3.
  - destruct (call_spec pre preN d (mkSides 0 0 T B S N) x1 (x + len) m1 _ Hpre HpreN R1) as (m2 & E2 & R2); [lia| |].
    { intros k Hk'. destruct (Hk k ltac:(lia)). split; [assumption|]. split; [assumption|]. rewrite Esides. destruct (Z.eqb_spec k 0), (Z.eqb_spec k (nx - 1)); try lia. reflexivity. }
    rewrite E2. cbn [option_map snd]. exists m2. split; [reflexivity|]. rewrite (row_ops_app pre preN d x x1 (x + len)) by lia. now rewrite modify_app.
Qed.
End Line.
