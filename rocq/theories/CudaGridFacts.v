(** Facts on grids on the device. *)
From Coq Require Import Permutation.
From Verif Require Import Base ListFacts RegionSpec RegionModel RegionRep RegionIterModel RegionStreaks RegionOpsModel HaloSpec
  CoordModel CoordSpec CoordFacts TopologyFacts PatchModel ConfigFacts GridModel GridSpec GridFacts DisplacedFacts GridReach
  StencilModel UpdateModel UpdateSpec CudaGridModel CudaGridSpec.

Lemma denotes_none_oob t : forall dim c, length t = length dim -> length c = length dim -> denotes t dim c = None -> out_of_bounds t c dim = true.
Proof.
  induction t as [|w t IH]; intros [|n dim] [|x c] H1 H2 H; try discriminate.
  cbn [denotes out_of_bounds] in *. apply orb_true_iff. destruct (denotes t dim c) as [r|] eqn:Ed.
  - destruct w; [discriminate|]. left. destruct (Z.leb_spec 0 x), (Z.ltb_spec x n); cbn in H |- *; try discriminate; lia.
  - right. apply IH; auto.
Qed.

Section Grid.
Context {C : Type} (t : topology) (correct : bool) (b : box) (topo : coord).
Context (Hs : setup_ok t correct b topo).

Notation dim := (b_dim b).
Notation org := (b_origin b).
Notation den := (ddenotes t correct b topo).

Definition crep (g : cgrid C) (f : place -> C) : Prop :=
  cg_box g = b /\ cg_topo g = topo /\ rep dim (mkVGrid dim (cg_cells g) (cg_store g)) f /\ cg_host g = f None.

Lemma c_len : length t = length dim. Proof using Hs. exact (so_len t correct b topo Hs). Qed.
Lemma c_pos : allpos dim. Proof using Hs. exact (so_pos t correct b topo Hs). Qed.
Lemma c_ne : dim <> []. Proof using Hs. exact (so_ne t correct b topo Hs). Qed.
Lemma c_org : length org = length dim. Proof using Hs. exact (so_org t correct b topo Hs). Qed.

Lemma crep_make dflt edge : crep (cg_make b dflt edge topo) (fresh dflt edge).
Proof using Hs. split; [reflexivity|]. split; [reflexivity|]. split; [|reflexivity]. exact (rep_make t dim c_len c_pos dflt edge). Qed.

Lemma crep_ext g f f' : crep g f -> (forall p, f p = f' p) -> crep g f'.
Proof using.
  intros (H1 & H2 & H3 & H4) H. split; [exact H1|]. split; [exact H2|]. split; [now apply (rep_ext _ _ f)|]. now rewrite <- H.
Qed.

(** The relative coordinate which results from [toRelativeCoord] and its
    counterpart for DisplacedGrids. *)
Lemma relative_spec rel c : rel = (let r := zsub c org in if correct then normalize t r topo else r) -> cuda_coord t correct b topo c ->
  (den c = Some rel /\ in_grid dim rel) \/ (den c = None /\ out_of_bounds t rel dim = true).
Proof using Hs.
  intros -> [Hlc Hc]. pose proof c_len as Hl. pose proof c_pos as Hp. pose proof c_org as Ho. unfold ddenotes. cbv zeta.
  destruct (bool_cases correct) as [Ec|Ec]; rewrite Ec in Hc |- *.
  - destruct Hc as [Hcl Hin]. destruct (so_topo t correct b topo Hs Ec) as [Ht Hpt].
    pose proof (normalize_spec t topo (zsub c org) Ht Hpt (proj1 (close_one _ _) Hcl)) as [N1 N2].
    destruct (denotes t topo (zsub c org)) as [c'|] eqn:Ed.
    + left. rewrite (N1 c') by (apply denotes_wraps; auto). split; [reflexivity|auto].
    + right. split; [reflexivity|]. pose proof (close_length _ _ Hcl) as Hlen. rewrite N2.
      * apply (oob_diag2 t topo); auto. apply denotes_none_oob; auto.
      * intros c' Hw. apply denotes_wraps in Hw; auto. congruence.
  - destruct Hc as [Hc|Hc].
    + left. apply in_box_zsub in Hc; [|exact Ho]. destruct Hc as [_ Hc]. split; [|exact Hc]. now apply denotes_self.
    + right. split; [exact Hc|]. apply denotes_none_oob; auto. rewrite zsub_length; lia.
Qed.

Lemma grid_not_oob rel : in_grid dim rel -> out_of_bounds t rel dim = false.
Proof using Hs.
  intros H. destruct (out_of_bounds t rel dim) eqn:E; [|reflexivity]. apply (denotes_oob t dim _ c_len c_pos) in E.
  rewrite (denotes_self t dim _ c_len c_pos H) in E. discriminate.
Qed.

(** The address of a coordinate. *)
Lemma address_spec g f c : crep g f -> cuda_coord t correct b topo c ->
  match den c with
  | Some c' => in_grid dim c' /\ cg_address t correct g c = ACell (to_index c' dim)
  | None => cg_address t correct g c = AEdge
  end.
Proof using Hs.
  intros (E1 & E2 & _ & _) Hc. unfold cg_address. rewrite E1.
  destruct (relative_spec (cg_coord t correct g c) c) as [[H1 H2]|[H1 H2]]; [unfold cg_coord; now rewrite E1, E2|exact Hc| |].
  - rewrite H1, (grid_not_oob _ H2). now split.
  - now rewrite H1, H2.
Qed.

Lemma host_address_spec (d : dgrid C) f c : drep b topo d f -> cuda_coord t correct b topo c ->
  match den c with
  | Some c' => in_grid dim c' /\ host_address t correct d c = ACell (to_index c' dim)
  | None => host_address t correct d c = AEdge
  end.
Proof using Hs.
  intros (E1 & E2 & E3) Hc. pose proof E3 as (E4 & _). unfold host_address. rewrite E4.
  destruct (relative_spec (dg_coord t correct d c) c) as [[H1 H2]|[H1 H2]]; [unfold dg_coord; now rewrite E1, E2|exact Hc| |].
  - rewrite H1, (grid_not_oob _ H2). split; [exact H2|]. f_equal. f_equal.
    pose proof (denotes_in t dim _ c_len c_pos (in_grid_close dim _ c_pos H2) (grid_not_oob _ H2)) as [E _].
    rewrite (denotes_self t dim _ c_len c_pos H2) in E. injection E as E. auto.
  - now rewrite H1, H2.
Qed.

(** ** Rows *)

(** Coordinates whose places form a row of the array. *)
Definition row (off : coord) (s : streak) (P : coord) (X : Z) : Prop :=
  length P = (length dim - 1)%nat /\ den (zadd (s_origin s) off) = Some (P ++ [X]) /\
  map den (map (fun c => zadd c off) (streak_coords s)) = map (fun y => Some (P ++ [y])) (zrange X (X + (s_e s - s_x s))) /\
  forall y, X <= y < X + (s_e s - s_x s) -> in_grid dim (P ++ [y]).

Lemma row_of (R : coord -> Prop) off s : rows_ok t correct b topo R off -> s_x s < s_e s -> Forall R (streak_coords s) -> exists P X, row off s P X.
Proof using Hs.
  intros [H1 H2] Hx Hall. rewrite Forall_forall in Hall.
  assert (Hin : forall x, s_x s <= x < s_e s -> R (s_pre s ++ [x])).
  { intros x Hr. apply Hall. unfold streak_coords. apply in_map_iff. exists x. split; [reflexivity|]. now apply zrange_in. }
  destruct (H1 _ (Hin (s_x s) ltac:(lia))) as (_ & c0 & Hd & Hg). pose proof (in_grid_length _ _ Hg) as Hl.
  assert (Hn0 : exists n, length c0 = S n). { destruct c0; [|eexists; reflexivity]. exfalso. pose proof c_ne as Hne. destruct dim; [congruence|discriminate]. }
  destruct Hn0 as [n0 Hn0]. destruct (snoc_parts c0 n0 0 Hn0) as [E0 Hlp].
  exists (removelast c0), (last c0 0).
  assert (Hall2 : forall k, (Z.of_nat k < s_e s - s_x s) -> den (zadd (s_pre s ++ [s_x s + Z.of_nat k]) off) = Some (removelast c0 ++ [last c0 0 + Z.of_nat k])).
  { induction k as [|k IH]; intros Hk.
    - cbn [Z.of_nat]. rewrite !Z.add_0_r. rewrite <- E0. exact Hd.
    - specialize (IH ltac:(lia)). pose proof (H2 (s_pre s) (s_x s + Z.of_nat k) _ (Hin (s_x s + Z.of_nat k) ltac:(lia)) (Hin (s_x s + Z.of_nat k + 1) ltac:(lia)) IH) as H.
      replace (s_x s + Z.of_nat (S k)) with (s_x s + Z.of_nat k + 1) by lia. rewrite H.
      rewrite removelast_last, last_last. f_equal. f_equal. f_equal. lia. }
  assert (Hall3 : forall k, 0 <= k < s_e s - s_x s -> den (zadd (s_pre s ++ [s_x s + k]) off) = Some (removelast c0 ++ [last c0 0 + k])).
  { intros k Hk. pose proof (Hall2 (Z.to_nat k)) as H. rewrite Z2Nat.id in H by lia. apply H. lia. }
  split; [lia|]. split; [rewrite <- E0; exact Hd|]. split.
  - unfold streak_coords. rewrite !map_map.
    replace (zrange (s_x s) (s_e s)) with (map (fun x => x + s_x s) (zrange 0 (s_e s - s_x s))) by (rewrite map_zrange_shift; f_equal; lia).
    replace (zrange (last c0 0) (last c0 0 + (s_e s - s_x s))) with (map (fun x => x + last c0 0) (zrange 0 (s_e s - s_x s))) by (rewrite map_zrange_shift; f_equal; lia).
    rewrite !map_map. apply map_ext_in. intros k Hk. apply zrange_in in Hk. rewrite (Z.add_comm k), Hall3 by lia. do 3 f_equal. lia.
  - intros y Hy. destruct (H1 _ (Hin (s_x s + (y - last c0 0)) ltac:(lia))) as (_ & c' & Hd' & Hg').
    rewrite Hall3 in Hd' by lia. injection Hd' as <-. replace (last c0 0 + (y - last c0 0)) with y in Hg' by lia. exact Hg'.
Qed.

Definition places (off : coord) (s : streak) : list place := map den (map (fun c => zadd c off) (streak_coords s)).

Lemma row_read (cells : list C) store f off s P X : rep dim (mkVGrid dim cells store) f -> s_x s < s_e s -> row off s P X ->
  vec_read cells (to_index (P ++ [X]) dim) (Z.to_nat (s_e s - s_x s)) = Some (map f (places off s)).
Proof using Hs.
  intros Hr Hx (R1 & R2 & R3 & R4). pose proof (rep_read t dim c_len c_pos c_ne _ f P (X + (s_e s - s_x s)) Hr R1 (Z.to_nat (s_e s - s_x s)) X) as H.
  cbn [g_cells] in H. rewrite H; [|f_equal; lia|exact R4]. f_equal. unfold places. rewrite R3, map_map. apply map_ext_in. intros y Hy.
  apply zrange_in in Hy. now rewrite (denotes_self t dim _ c_len c_pos (R4 y Hy)).
Qed.

Lemma row_write (cells : list C) store f off s P X vs : rep dim (mkVGrid dim cells store) f -> s_x s < s_e s -> row off s P X ->
  (Z.to_nat (s_e s - s_x s) <= length vs)%nat ->
  exists l, vec_write cells (to_index (P ++ [X]) dim) (Z.to_nat (s_e s - s_x s)) vs = Some l /\
    rep dim (mkVGrid dim l store) (last_written f (combine (places off s) vs)).
Proof using Hs.
  intros Hr Hx (R1 & R2 & R3 & R4) Hv.
  destruct (rep_write t dim c_len c_pos c_ne P (X + (s_e s - s_x s)) R1 (Z.to_nat (s_e s - s_x s)) X _ f vs Hr) as (l & E & H); [f_equal; lia|exact Hv|exact R4|].
  cbn [g_cells g_dim g_edge] in E, H. exists l. split; [exact E|]. unfold places. rewrite R3. rewrite map_map in H.
  erewrite map_ext_in in H; [exact H|]. intros y Hy. apply zrange_in in Hy. cbn beta. now rewrite (denotes_self t dim _ c_len c_pos (R4 y Hy)).
Qed.

Lemma places_none f off s P X (vs : list C) : row off s P X -> last_written f (combine (places off s) vs) None = f None.
Proof using.
  intros (_ & _ & R3 & _). apply last_written_other. intros [p v] Hin. cbn [fst]. apply in_combine_l in Hin. unfold places in Hin. rewrite R3 in Hin.
  apply in_map_iff in Hin. destruct Hin as (y & <- & _). discriminate.
Qed.

(** What a streak has to meet. *)
Definition fits (off : coord) (s : streak) : Prop :=
  s_x s <= s_e s /\ (s_x s < s_e s -> cuda_coord t correct b topo (zadd (s_origin s) off) /\ exists P X, row off s P X).

Lemma streak_count_spec s : s_x s <= s_e s -> streak_count s = Some (Z.to_nat (s_e s - s_x s)).
Proof using. intros H. unfold streak_count. destruct (Z.ltb_spec (s_e s) (s_x s)); [lia|reflexivity]. Qed.

Lemma places_nil off s : s_x s = s_e s -> places off s = [].
Proof using. intros E. unfold places, streak_coords. rewrite zrange_nil by lia. reflexivity. Qed.

Lemma places_length off s : length (places off s) = Z.to_nat (s_e s - s_x s).
Proof using. unfold places. now rewrite !map_length, streak_coords_length. Qed.

Lemma row_den off s P X : row off s P X -> den (zadd (s_origin s) off) = Some (P ++ [X]).
Proof using. intros (_ & H & _). exact H. Qed.

Lemma read_fits g f off s : crep g f -> fits off s ->
  cg_read g (cg_address t correct g (zadd (s_origin s) off)) (Z.to_nat (s_e s - s_x s)) = Some (map f (places off s)).
Proof using Hs.
  intros Hg [Hx Hr]. destruct (Z.eq_dec (s_x s) (s_e s)) as [E|E].
  - rewrite places_nil by exact E. rewrite E, Z.sub_diag. destruct (cg_address t correct g _); reflexivity.
  - destruct (Hr ltac:(lia)) as (Hc & P & X & H). pose proof (address_spec g f _ Hg Hc) as Ha. rewrite (row_den _ _ _ _ H) in Ha.
    destruct Ha as [_ ->]. unfold cg_read. destruct Hg as (_ & _ & Hg & _). apply (row_read _ _ f off s P X Hg); [lia|exact H].
Qed.

Lemma write_fits g f off s vs : crep g f -> fits off s -> (Z.to_nat (s_e s - s_x s) <= length vs)%nat ->
  exists g', cg_write g (cg_address t correct g (zadd (s_origin s) off)) (Z.to_nat (s_e s - s_x s)) vs = Some g' /\
    crep g' (last_written f (combine (places off s) vs)).
Proof using Hs.
  intros Hg [Hx Hr] Hv. destruct (Z.eq_dec (s_x s) (s_e s)) as [E|E].
  - rewrite places_nil by exact E. rewrite E, Z.sub_diag. change (Z.to_nat 0) with O. exists g. split; [|exact Hg].
    destruct g as [g1 g2 g3 g4 g5]. unfold cg_write. cbn [vec_write]. destruct (cg_address t correct _ _); reflexivity.
  - destruct (Hr ltac:(lia)) as (Hc & P & X & H). pose proof (address_spec g f _ Hg Hc) as Ha. rewrite (row_den _ _ _ _ H) in Ha.
    destruct Ha as [_ ->]. unfold cg_write. pose proof Hg as (G1 & G2 & G3 & G4).
    destruct (row_write _ _ f off s P X vs G3) as (l & E1 & E2); [lia|exact H|exact Hv|]. rewrite E1. eexists. split; [reflexivity|].
    split; [exact G1|]. split; [exact G2|]. split; [exact E2|]. cbn [cg_with cg_host]. now rewrite (places_none f off s P X vs H).
Qed.

Lemma host_read_fits (d : dgrid C) f off s : drep b topo d f -> fits off s ->
  host_read d (host_address t correct d (zadd (s_origin s) off)) (Z.to_nat (s_e s - s_x s)) = Some (map f (places off s)).
Proof using Hs.
  intros Hg [Hx Hr]. destruct (Z.eq_dec (s_x s) (s_e s)) as [E|E].
  - rewrite places_nil by exact E. rewrite E, Z.sub_diag. destruct (host_address t correct d _); reflexivity.
  - destruct (Hr ltac:(lia)) as (Hc & P & X & H). pose proof (host_address_spec d f _ Hg Hc) as Ha. rewrite (row_den _ _ _ _ H) in Ha.
    destruct Ha as [_ ->]. unfold host_read. destruct Hg as (_ & _ & Hg). pose proof Hg as (Hd & _). destruct (d_grid d) as [dd cells e]. cbn [g_dim] in Hd.
    cbn [g_cells]. rewrite Hd in Hg. apply (row_read _ _ f off s P X Hg); [lia|exact H].
Qed.

Lemma host_write_fits (d : dgrid C) f off s vs : drep b topo d f -> fits off s -> (Z.to_nat (s_e s - s_x s) <= length vs)%nat ->
  exists d', host_write d (host_address t correct d (zadd (s_origin s) off)) (Z.to_nat (s_e s - s_x s)) vs = Some d' /\
    drep b topo d' (last_written f (combine (places off s) vs)).
Proof using Hs.
  intros Hg [Hx Hr] Hv. destruct (Z.eq_dec (s_x s) (s_e s)) as [E|E].
  - rewrite places_nil by exact E. rewrite E, Z.sub_diag. change (Z.to_nat 0) with O. exists d. split; [|exact Hg].
    destruct d as [[g1 g2 g3] g4 g5]. unfold host_write. cbn [vec_write]. destruct (host_address t correct _ _); reflexivity.
  - destruct (Hr ltac:(lia)) as (Hc & P & X & H). pose proof (host_address_spec d f _ Hg Hc) as Ha. rewrite (row_den _ _ _ _ H) in Ha.
    destruct Ha as [_ ->]. unfold host_write. pose proof Hg as (G1 & G2 & G3). pose proof G3 as (Hd & _). destruct (d_grid d) as [dd cells e]. cbn [g_dim] in Hd.
    cbn [g_cells g_edge g_dim]. rewrite Hd in G3 |- *.
    destruct (row_write _ _ f off s P X vs G3) as (l & E1 & E2); [lia|exact H|exact Hv|]. rewrite E1. eexists. split; [reflexivity|].
    split; [exact G1|]. split; [exact G2|exact E2].
Qed.

(** ** Single accesses *)
Lemma crep_get g f c : crep g f -> cuda_coord t correct b topo c -> cg_get t correct g c = Some (f (den c)).
Proof using Hs.
  intros Hg Hc. pose proof (address_spec g f c Hg Hc) as Ha. destruct Hg as (_ & _ & (_ & _ & Hedge & Hin) & _). cbn [g_cells g_edge] in *.
  unfold cg_get. destruct (den c) as [c'|].
  - destruct Ha as [H1 ->]. unfold cg_read. cbn [vec_read]. rewrite (Hin _ H1). reflexivity.
  - rewrite Ha. unfold cg_read. cbn. now rewrite Hedge.
Qed.

Lemma crep_set g f c v : crep g f -> cuda_coord t correct b topo c ->
  exists g', cg_set t correct g c v = Some g' /\ crep g' (last_written f [(den c, v)]).
Proof using Hs.
  intros Hg Hc. pose proof (address_spec g f c Hg Hc) as Ha. pose proof Hg as (G1 & G2 & G3 & G4). unfold cg_set. destruct (den c) as [c'|].
  - destruct Ha as [H1 ->]. unfold cg_write. cbn [vec_write].
    destruct (rep_put t dim c_len c_pos _ f c' v G3 H1) as (l & E & R). cbn [g_cells g_edge g_dim] in E, R. rewrite E. cbn [obind option_map].
    eexists. split; [reflexivity|]. split; [exact G1|]. split; [exact G2|]. split.
    + apply (rep_ext _ _ _ _ R). intros p. unfold last_written. cbn. reflexivity.
    + cbn [cg_with cg_host]. rewrite last_written_other; [exact G4|]. intros w [<-|[]]. discriminate.
  - rewrite Ha. unfold cg_write. cbn. eexists. split; [reflexivity|]. split; [exact G1|]. split; [exact G2|]. split.
    + apply (rep_edge dim _ f v) in G3. exact G3.
    + cbn. destruct (place_dec None None); [reflexivity|congruence].
Qed.

Lemma crep_set_edge g f v : crep g f -> crep (cg_set_edge g v) (last_written f [(None, v)]).
Proof using.
  intros (G1 & G2 & G3 & G4). split; [exact G1|]. split; [exact G2|]. split.
  - apply (rep_edge dim _ f v) in G3. exact G3.
  - cbn. destruct (place_dec None None); [reflexivity|congruence].
Qed.

(** Streaks within the box. *)
Lemma box_den c : in_box b c -> cuda_coord t correct b topo c /\ den c = Some (zsub c org) /\ in_grid dim (zsub c org).
Proof using Hs.
  intros Hc. pose proof c_len as Hl. pose proof c_pos as Hp. pose proof c_org as Ho. pose proof Hc as Hb.
  apply in_box_zsub in Hc; [|exact Ho]. destruct Hc as [Hlc Hc]. unfold cuda_coord, ddenotes.
  destruct (bool_cases correct) as [Ec|Ec]; rewrite Ec.
  - destruct (so_topo t correct b topo Hs Ec) as [Ht Hpt].
    assert (Hg : in_grid topo (zsub c org)) by (apply (in_grid_le dim); [apply Hs; exact Ec|exact Hc]).
    assert (Hd : denotes t topo (zsub c org) = Some (zsub c org)) by now apply denotes_self.
    split; [|now split]. split; [lia|]. split; [now apply in_grid_close|]. intros c' E. rewrite Hd in E. injection E as <-. exact Hc.
  - split; [split; [lia|now left]|]. split; [|exact Hc]. now apply denotes_self.
Qed.

Lemma zadd_zeros c n : length c = n -> zadd c (repeat 0 n) = c.
Proof using. revert n. induction c as [|x c IH]; intros [|n] H; try discriminate; [reflexivity|]. cbn. rewrite IH by (now injection H). now rewrite Z.add_0_r. Qed.

Lemma box_row pre x : zsub (pre ++ [x]) org <> [] -> in_box b (pre ++ [x]) -> in_box b (pre ++ [x + 1]) ->
  zsub (pre ++ [x + 1]) org = removelast (zsub (pre ++ [x]) org) ++ [last (zsub (pre ++ [x]) org) 0 + 1].
Proof using Hs.
  intros _ H1 H2. apply inside_length in H1. pose proof c_org as Ho.
  rewrite app_length in H1. cbn in H1. destruct (snoc_parts org (length pre) 0) as [E El]; [lia|]. rewrite E.
  rewrite !zsub_snoc by lia. rewrite removelast_last, last_last. f_equal. f_equal. lia.
Qed.

Lemma box_rows : rows_ok t correct b topo (in_box b) (no_offset t).
Proof using Hs.
  assert (Hz : forall c, in_box b c -> zadd c (no_offset t) = c).
  { intros c Hc. apply inside_length in Hc. pose proof c_org. pose proof c_len.
    assert (E : no_offset t = repeat 0 (length t)) by (unfold no_offset; clear; induction t; cbn; congruence). rewrite E. apply zadd_zeros. lia. }
  split.
  - intros c Hc. rewrite (Hz c Hc). destruct (box_den c Hc) as (H1 & H2 & H3). split; [exact H1|]. eexists. split; [exact H2|exact H3].
  - intros pre x c' H1 H2 H. rewrite Hz in H |- * by assumption. destruct (box_den _ H1) as (_ & D1 & _). destruct (box_den _ H2) as (_ & D2 & _).
    rewrite D1 in H. injection H as <-. rewrite D2. f_equal. apply box_row; auto.
    intros E. apply (f_equal (@length Z)) in E. apply inside_length in H1. pose proof c_org. rewrite zsub_length in E by lia. pose proof c_ne. destruct org, dim; cbn in *; congruence || lia.
Qed.

Lemma origin_in s : s_x s < s_e s -> In (s_origin s) (streak_coords s).
Proof using. intros H. unfold streak_coords, s_origin. apply in_map_iff. exists (s_x s). split; [reflexivity|]. apply zrange_in. lia. Qed.

Lemma rows_fit (R : coord -> Prop) off s : rows_ok t correct b topo R off -> s_x s <= s_e s -> Forall R (streak_coords s) -> fits off s.
Proof using Hs.
  intros HR Hx Hall. split; [exact Hx|]. intros Hlt. split; [|now apply (row_of R)].
  destruct HR as [H _]. rewrite Forall_forall in Hall. apply H. apply Hall. now apply origin_in.
Qed.

Lemma zadd_no_offset c : length c = length t -> zadd c (no_offset t) = c.
Proof using.
  intros H. assert (E : no_offset t = repeat 0 (length t)) by (unfold no_offset; clear; induction t; cbn; congruence). rewrite E. now apply zadd_zeros.
Qed.

Lemma places_plain s : Forall (fun c => length c = length t) (streak_coords s) -> places (no_offset t) s = map den (streak_coords s).
Proof using.
  intros H. unfold places. rewrite map_map. apply map_ext_in. intros c Hc. rewrite Forall_forall in H. now rewrite zadd_no_offset by auto.
Qed.

Lemma box_lengths s : Forall (in_box b) (streak_coords s) -> Forall (fun c => length c = length t) (streak_coords s).
Proof using Hs.
  intros H. eapply Forall_impl; [|exact H]. intros c Hc. apply inside_length in Hc. pose proof c_org. pose proof c_len. cbn beta. lia.
Qed.

(* The origin is only of interest if the streak isn't empty. *)
Lemma read_plain g f s : crep g f -> fits (no_offset t) s -> Forall (fun c => length c = length t) (streak_coords s) ->
  cg_read g (cg_address t correct g (s_origin s)) (Z.to_nat (s_e s - s_x s)) = Some (map f (map den (streak_coords s))).
Proof using Hs.
  intros Hg Hf Hl. rewrite <- places_plain by exact Hl. rewrite <- (read_fits g f (no_offset t) s Hg Hf). destruct Hf as [Hx _].
  destruct (Z.eq_dec (s_x s) (s_e s)) as [E|E]; [rewrite E, Z.sub_diag; repeat destruct (cg_address t correct g _); reflexivity|].
  rewrite zadd_no_offset; [reflexivity|]. rewrite Forall_forall in Hl. apply Hl. apply origin_in. lia.
Qed.

Lemma write_plain g f s vs : crep g f -> fits (no_offset t) s -> Forall (fun c => length c = length t) (streak_coords s) ->
  (Z.to_nat (s_e s - s_x s) <= length vs)%nat ->
  exists g', cg_write g (cg_address t correct g (s_origin s)) (Z.to_nat (s_e s - s_x s)) vs = Some g' /\ crep g' (last_written f (combine (map den (streak_coords s)) vs)).
Proof using Hs.
  intros Hg Hf Hl Hv. rewrite <- places_plain by exact Hl. destruct (write_fits g f (no_offset t) s vs Hg Hf Hv) as (g' & E & H).
  exists g'. split; [|exact H]. rewrite <- E. destruct Hf as [Hx _].
  destruct (Z.eq_dec (s_x s) (s_e s)) as [E'|E'].
  - rewrite E', Z.sub_diag. change (Z.to_nat 0) with O. destruct g as [g1 g2 g3 g4 g5]. unfold cg_write. cbn [vec_write]. repeat destruct (cg_address t correct _ _); reflexivity.
  - rewrite zadd_no_offset; [reflexivity|]. rewrite Forall_forall in Hl. apply Hl. apply origin_in. lia.
Qed.

Lemma host_read_plain (d : dgrid C) f s : drep b topo d f -> fits (no_offset t) s -> Forall (fun c => length c = length t) (streak_coords s) ->
  host_read d (host_address t correct d (s_origin s)) (Z.to_nat (s_e s - s_x s)) = Some (map f (map den (streak_coords s))).
Proof using Hs.
  intros Hg Hf Hl. rewrite <- places_plain by exact Hl. rewrite <- (host_read_fits d f (no_offset t) s Hg Hf). destruct Hf as [Hx _].
  destruct (Z.eq_dec (s_x s) (s_e s)) as [E|E]; [rewrite E, Z.sub_diag; repeat destruct (host_address t correct d _); reflexivity|].
  rewrite zadd_no_offset; [reflexivity|]. rewrite Forall_forall in Hl. apply Hl. apply origin_in. lia.
Qed.

Lemma host_write_plain (d : dgrid C) f s vs : drep b topo d f -> fits (no_offset t) s -> Forall (fun c => length c = length t) (streak_coords s) ->
  (Z.to_nat (s_e s - s_x s) <= length vs)%nat ->
  exists d', host_write d (host_address t correct d (s_origin s)) (Z.to_nat (s_e s - s_x s)) vs = Some d' /\ drep b topo d' (last_written f (combine (map den (streak_coords s)) vs)).
Proof using Hs.
  intros Hg Hf Hl Hv. rewrite <- places_plain by exact Hl. destruct (host_write_fits d f (no_offset t) s vs Hg Hf Hv) as (d' & E & H).
  exists d'. split; [|exact H]. rewrite <- E. destruct Hf as [Hx _].
  destruct (Z.eq_dec (s_x s) (s_e s)) as [E'|E'].
  - rewrite E', Z.sub_diag. change (Z.to_nat 0) with O. destruct d as [[g1 g2 g3] g4 g5]. unfold host_write. cbn [vec_write]. repeat destruct (host_address t correct _ _); reflexivity.
  - rewrite zadd_no_offset; [reflexivity|]. rewrite Forall_forall in Hl. apply Hl. apply origin_in. lia.
Qed.

Lemma crep_get_streak g f s : crep g f -> s_x s <= s_e s -> Forall (in_box b) (streak_coords s) ->
  cg_get_streak t correct g s = Some (map f (map den (streak_coords s))).
Proof using Hs.
  intros Hg Hx Hall. unfold cg_get_streak. rewrite streak_count_spec by exact Hx. cbn [obind].
  apply read_plain; [exact Hg|now apply (rows_fit _ _ _ box_rows)|now apply box_lengths].
Qed.

Lemma crep_op g f o : crep g f -> access_ok (cuda_coord t correct b topo) (in_box b) o ->
  exists g', cg_op t correct g o = Some g' /\ crep g' (last_written f (writes den o)).
Proof using Hs.
  intros Hg Ho. destruct o as [c v|s vs|v]; cbn [cg_op writes access_ok] in *.
  - now apply crep_set.
  - destruct Ho as (Hx & Hall & Hv). unfold cg_set_streak. rewrite streak_count_spec by exact Hx. cbn [obind].
    apply write_plain; [exact Hg|now apply (rows_fit _ _ _ box_rows)|now apply box_lengths|]. rewrite Hv, streak_coords_length. lia.
  - eexists. split; [reflexivity|]. now apply crep_set_edge.
Qed.

Lemma crep_ops l : forall g f, crep g f -> Forall (access_ok (cuda_coord t correct b topo) (in_box b)) l ->
  exists g', cg_ops t correct g l = Some g' /\ crep g' (last_written f (flat_map (writes den) l)).
Proof using Hs.
  induction l as [|o l IH]; intros g f Hg Hok; [exists g; now split|].
  inversion Hok as [|? ? H1 H2]; subst. destruct (crep_op g f o Hg H1) as (g1 & E1 & R1). cbn [cg_ops flat_map]. rewrite E1. cbn [obind].
  destruct (IH g1 _ R1 H2) as (g' & E & K). exists g'. split; [exact E|]. apply (crep_ext _ _ _ K). intros q. symmetry. apply last_written_app.
Qed.

(** ** Regions *)
Definition all_places (off : coord) (ss : list streak) : list place := map den (map (fun c => zadd c off) (flat_map streak_coords ss)).

Lemma all_places_cons off s ss : all_places off (s :: ss) = places off s ++ all_places off ss.
Proof using. unfold all_places, places. cbn [flat_map]. now rewrite !map_app. Qed.

Lemma save_spec g f off ss : crep g f -> Forall (fits off) ss -> cg_save_streaks t correct g off ss = Some (map f (all_places off ss)).
Proof using Hs.
  intros Hg. induction 1 as [|s ss Hf Hss IH]; [reflexivity|]. cbn [cg_save_streaks]. rewrite streak_count_spec by apply Hf. cbn [obind].
  rewrite (read_fits g f off s Hg Hf). cbn [obind]. rewrite IH. cbn [option_map]. f_equal. now rewrite all_places_cons, map_app.
Qed.

Lemma size_spec ss : Forall (fun s => s_x s <= s_e s) ss -> streaks_size ss = Z.of_nat (length (flat_map streak_coords ss)).
Proof using.
  induction 1 as [|s ss H _ IH]; [reflexivity|]. cbn [streaks_size fold_right flat_map]. fold (streaks_size ss). rewrite app_length, streak_coords_length, IH. lia.
Qed.

Lemma load_spec off ss : forall g f vs, crep g f -> Forall (fits off) ss -> (length (flat_map streak_coords ss) <= length vs)%nat ->
  exists g', cg_load_streaks t correct g off ss vs = Some g' /\ crep g' (last_written f (combine (all_places off ss) vs)).
Proof using Hs.
  induction ss as [|s ss IH]; intros g f vs Hg Hf Hv; [exists g; now split|].
  inversion Hf as [|? ? F1 F2]; subst. cbn [cg_load_streaks flat_map] in *. rewrite app_length, streak_coords_length in Hv.
  rewrite streak_count_spec by apply F1. cbn [obind].
  destruct (write_fits g f off s vs Hg F1) as (g1 & E1 & R1); [lia|]. rewrite E1. cbn [obind].
  destruct (IH g1 _ (skipn (Z.to_nat (s_e s - s_x s)) vs) R1 F2) as (g' & E & K); [rewrite skipn_length; lia|].
  exists g'. split; [exact E|]. apply (crep_ext _ _ _ K). intros q. rewrite all_places_cons, combine_app_l, last_written_app.
  now rewrite places_length.
Qed.
End Grid.

(** ** From and to the host *)
Lemma combine_app2 {A B} (a b : list A) : forall v w : list B, length a = length v -> combine (a ++ b) (v ++ w) = combine a v ++ combine b w.
Proof. induction a as [|x a IH]; intros [|y v] w H; try discriminate; [reflexivity|]. cbn. f_equal. apply IH. now injection H. Qed.

Section Transfer.
Context {C : Type} (t : topology) (correct : bool) (b bh : box) (topo : coord).
Context (Hs : setup_ok t correct b topo) (Hh : setup_ok t correct bh topo).

Definition both_fit (s : streak) : Prop :=
  fits t correct b topo (no_offset t) s /\ fits t correct bh topo (no_offset t) s /\ Forall (fun c => length c = length t) (streak_coords s).

Lemma host_save_spec ss : forall (g : cgrid C) f (d : dgrid C) h, crep b topo g f -> drep bh topo d h -> Forall both_fit ss ->
  exists d', cg_save_grid t correct g d ss = Some d' /\
    drep bh topo d' (last_written h (combine (map (ddenotes t correct bh topo) (flat_map streak_coords ss))
                                            (map f (map (ddenotes t correct b topo) (flat_map streak_coords ss))))).
Proof using Hs Hh.
  induction ss as [|s ss IH]; intros g f d h Hg Hd Hf; [exists d; now split|].
  inversion Hf as [|? ? (F1 & F2 & F3) F4]; subst. cbn [cg_save_grid flat_map]. rewrite streak_count_spec by apply F1. cbn [obind].
  rewrite (read_plain t correct b topo Hs g f s Hg F1 F3). cbn [obind].
  destruct (host_write_plain t correct bh topo Hh d h s (map f (map (ddenotes t correct b topo) (streak_coords s))) Hd F2 F3) as (d1 & E1 & R1).
  { rewrite !map_length, streak_coords_length. lia. }
  rewrite E1. cbn [obind]. destruct (IH g f d1 _ Hg R1 F4) as (d' & E & K). exists d'. split; [exact E|].
  destruct K as (K1 & K2 & K3). split; [exact K1|]. split; [exact K2|]. apply (rep_ext _ _ _ _ K3). intros q. rewrite !map_app.
  now rewrite combine_app2, last_written_app by (now rewrite !map_length).
Qed.

Lemma host_load_spec ss : forall (g : cgrid C) f (d : dgrid C) h, crep b topo g f -> drep bh topo d h -> Forall both_fit ss ->
  exists g', cg_load_grid t correct d g ss = Some g' /\
    crep b topo g' (last_written f (combine (map (ddenotes t correct b topo) (flat_map streak_coords ss))
                                           (map h (map (ddenotes t correct bh topo) (flat_map streak_coords ss))))).
Proof using Hs Hh.
  induction ss as [|s ss IH]; intros g f d h Hg Hd Hf; [exists g; now split|].
  inversion Hf as [|? ? (F1 & F2 & F3) F4]; subst. cbn [cg_load_grid flat_map]. rewrite streak_count_spec by apply F1. cbn [obind].
  rewrite (host_read_plain t correct bh topo Hh d h s Hd F2 F3). cbn [obind].
  destruct (write_plain t correct b topo Hs g f s (map h (map (ddenotes t correct bh topo) (streak_coords s))) Hg F1 F3) as (g1 & E1 & R1).
  { rewrite !map_length, streak_coords_length. lia. }
  rewrite E1. cbn [obind]. destruct (IH g1 _ d h R1 Hd F4) as (g' & E & K). exists g'. split; [exact E|].
  apply (crep_ext b topo _ _ _ K). intros q. rewrite !map_app.
  now rewrite combine_app2, last_written_app by (now rewrite !map_length).
Qed.
End Transfer.

(** The streaks of a region. *)
Lemma region_parts n r : rvalid n r -> exists ss cs, reg_streaks r = Some ss /\ region_coords r = Some cs /\ cs = flat_map streak_coords ss /\
  Forall (fun s => s_x s <= s_e s /\ Forall (inr n r) (streak_coords s)) ss /\ (forall c, In c cs <-> inr n r c) /\ NoDup cs.
Proof.
  intros Hv. destruct (streaks_valid n r Hv) as (l & [_ Hok] & _ & E & _). destruct (region_coords_nodup n r Hv) as (cs & Ecs & Hcs & Hnd).
  exists l, cs. split; [exact E|]. split; [exact Ecs|]. assert (cs = flat_map streak_coords l) as Ef.
  { unfold region_coords in Ecs. rewrite E in Ecs. cbn in Ecs. congruence. }
  split; [exact Ef|]. split; [|now split]. rewrite Forall_forall in Hok |- *. intros s Hin. split; [destruct (Hok s Hin); lia|].
  apply Forall_forall. intros c Hc. apply Hcs. rewrite Ef. apply in_flat_map. eauto.
Qed.

Lemma region_fits t correct b topo n r off ss : setup_ok t correct b topo -> rows_ok t correct b topo (inr n r) off ->
  Forall (fun s => s_x s <= s_e s /\ Forall (inr n r) (streak_coords s)) ss -> Forall (fits t correct b topo off) ss.
Proof. intros Hs HR H. eapply Forall_impl; [|exact H]. intros s [H1 H2]. now apply (rows_fit t correct b topo Hs (inr n r)). Qed.

Lemma region_both t correct b bh topo n r ss : length t = S n -> setup_ok t correct b topo -> setup_ok t correct bh topo ->
  rows_ok t correct b topo (inr n r) (no_offset t) -> rows_ok t correct bh topo (inr n r) (no_offset t) ->
  Forall (fun s => s_x s <= s_e s /\ Forall (inr n r) (streak_coords s)) ss -> Forall (both_fit t correct b bh topo) ss.
Proof.
  intros Ht Hs Hh R1 R2 H. eapply Forall_impl; [|exact H]. intros s [H1 H2].
  split; [now apply (rows_fit t correct b topo Hs (inr n r))|]. split; [now apply (rows_fit t correct bh topo Hh (inr n r))|].
  eapply Forall_impl; [|exact H2]. intros c [Hc _]. cbn beta. unfold coord in *. lia.
Qed.

Lemma cg_reach_rep {C} t correct b topo (g : cgrid C) : setup_ok t correct b topo -> cg_reach t correct b topo g -> exists f, crep b topo g f.
Proof.
  intros Hs. induction 1 as [dflt edge|g o g' Hr [f Hf] Ho E|g n r off vs g' Hr [f Hf] Ht Hv Ho HR E|g bh n r ss d g' Hr [f Hf] Ht Hv Hh Hd Ess R1 R2 E].
  - exists (fresh dflt edge). now apply (crep_make t correct).
  - destruct (crep_op t correct b topo Hs g f o Hf Ho) as (g2 & E2 & R). rewrite E in E2. injection E2 as <-. eauto.
  - destruct (region_parts n r Hv) as (ss & cs & Ess & _ & Ecs & Hss & _). unfold cg_load in E. rewrite Ess in E.
    destruct (Z.ltb_spec (Z.of_nat (length vs)) (streaks_size ss)) as [|Hsz]; [discriminate|].
    rewrite size_spec in Hsz by (eapply Forall_impl; [|exact Hss]; cbn; tauto).
    destruct (load_spec t correct b topo Hs off ss g f vs Hf) as (g2 & E2 & R); [now apply (region_fits t correct b topo n r)|lia|].
    rewrite E2 in E. cbn in E. injection E as <-. eauto.
  - destruct (region_parts n r Hv) as (ss' & cs & Ess' & _ & Ecs & Hss & _). rewrite Ess in Ess'. injection Ess' as <-.
    destruct (dg_reach_rep t correct bh topo d Hh Hd) as [h Hdr].
    destruct (host_load_spec t correct b bh topo Hs Hh ss g f d h Hf Hdr) as (g2 & E2 & R); [now apply (region_both t correct b bh topo n r)|].
    rewrite E in E2. injection E2 as <-. eauto.
Qed.

(** Regions inside of the box. *)
Lemma box_region_ok t correct b topo (R : coord -> Prop) off : setup_ok t correct b topo -> length off = length t ->
  (forall c, R c -> length c = length t /\ in_box b (zadd c off)) -> rows_ok t correct b topo R off /\ apart t correct b topo R off.
Proof.
  intros Hs Ho HR. pose proof (so_len t correct b topo Hs) as Hl. pose proof (so_org t correct b topo Hs) as Hg. split; [split|].
  - intros c Hc. destruct (HR c Hc) as [_ Hb]. destruct (box_den t correct b topo Hs _ Hb) as (H1 & H2 & H3). split; [exact H1|eauto].
  - intros pre x c' H1 H2 H. destruct (HR _ H1) as [L1 B1]. destruct (HR _ H2) as [L2 B2].
    destruct (box_den t correct b topo Hs _ B1) as (_ & D1 & _). destruct (box_den t correct b topo Hs _ B2) as (_ & D2 & _).
    rewrite D1 in H. injection H as <-. rewrite D2. f_equal. rewrite app_length in L1. cbn in L1.
    destruct (snoc_parts off (length pre) 0) as [E El]; [lia|]. destruct (snoc_parts (b_origin b) (length pre) 0) as [E' El']; [lia|].
    rewrite E, E'. rewrite !zadd_snoc by lia. assert (length (zadd pre (removelast off)) = length (removelast (b_origin b))) by (rewrite zadd_length'; lia).
    rewrite !zsub_snoc by assumption. rewrite removelast_last, last_last. f_equal. f_equal. lia.
  - intros a c Ha Hc E. destruct (HR _ Ha) as [L1 B1]. destruct (HR _ Hc) as [L2 B2].
    destruct (box_den t correct b topo Hs _ B1) as (_ & D1 & _). destruct (box_den t correct b topo Hs _ B2) as (_ & D2 & _).
    rewrite D1, D2 in E. injection E as E. apply sub_inj in E; [|rewrite zadd_length'; lia|rewrite !zadd_length'; lia].
    clear - E L1 L2 Ho. assert (length a = length off) as H1 by lia. assert (length c = length off) as H2 by lia. clear L1 L2 Ho.
    revert c off E H1 H2. induction a as [|x a IH]; intros [|y c] [|z off] E H1 H2; try discriminate; [reflexivity|].
    cbn in E. injection E as E1 E2. f_equal; [lia|]. apply (IH c off); auto.
Qed.
