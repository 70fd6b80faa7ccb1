(** SoAGrid holds what has been written last, and the edge cell in its
    padding. *)
From Verif Require Import Base ListFacts RegionSpec RegionModel RegionRep RegionIterModel RegionStreaks RegionOpsModel HaloSpec
  CoordModel CoordSpec CoordFacts TopologyFacts PatchModel GridModel GridSpec GridFacts DisplacedFacts
  StencilModel StencilSpec UpdateModel UpdateSpec UpdateFacts SoAModel SoASpec SoAFacts.

Lemma emb_row t R pre : length t = S (length pre) -> (length t <= 3)%nat ->
  exists z y r, forall x, emb t R (pre ++ [x]) = [z; y; r + x].
Proof.
  intros Hl H3. destruct pre as [|p0 [|p1 [|]]]; cbn [length] in *; try lia; destruct t as [|w0 [|w1 [|w2 [|]]]]; try discriminate;
    unfold emb, edge_radii, pad; cbn -[Z.add]; do 3 eexists; intros x; reflexivity.
Qed.

Lemma emb_length t R c : length c = length t -> (length t <= 3)%nat -> length (emb t R c) = 3%nat.
Proof.
  intros Hl H3. destruct t as [|w0 [|w1 [|w2 [|]]]]; cbn [length] in *; try lia; destruct c as [|c0 [|c1 [|c2 [|]]]]; try discriminate; reflexivity.
Qed.

Lemma coord_eqb_eq a : forall b, CoordModel.coord_eqb a b = true <-> a = b.
Proof.
  induction a as [|x a IH]; intros [|y b]; cbn; try (split; congruence). rewrite andb_true_iff, IH. split.
  - intros [E ->]. f_equal. lia.
  - intros E. injection E as -> ->. split; [apply Z.eqb_refl|reflexivity].
Qed.

Lemma m3_ext {C} ext (m : list C) F G : m3 ext m F -> (forall p, F p = G p) -> m3 ext m G.
Proof. intros (e & R) H. exists e. now apply (rep_ext ext _ F). Qed.

Lemma in_denotes t : forall dim c, length t = length dim -> length c = length dim -> allpos dim -> out_of_bounds t c dim = false ->
  exists c', denotes t dim c = Some c' /\ in_grid dim c'.
Proof.
  induction t as [|w t IH]; intros [|n dim] [|x c] L1 L2 Ha Ho; try discriminate; [exists []; split; [reflexivity|exact Logic.I]|].
  apply Forall_cons_iff' in Ha. destruct Ha as [Hn Ha]. cbn [out_of_bounds] in Ho. apply orb_false_iff in Ho. destruct Ho as [Ho1 Ho2].
  destruct (IH dim c) as (c' & E & Hi); auto. cbn [denotes]. rewrite E. destruct w.
  - exists (x mod n :: c'). split; [reflexivity|]. apply in_grid_cons. split; [apply Z.mod_pos_bound; lia|exact Hi].
  - cbn [negb andb] in Ho1. destruct (Z.leb_spec 0 x), (Z.ltb_spec x n); try lia. cbn [andb]. exists (x :: c'). split; [reflexivity|]. apply in_grid_cons. split; [lia|exact Hi].
Qed.

Section Rep.
Context {C : Type} (t : topology) (R : Z) (sizes : coord -> option coord).
Context (Hl3 : (length t <= 3)%nat) (Hne : t <> []) (HR : 0 <= R) (Hsz : sizes_ok sizes).

Definition srep (b : box) (topo : coord) (g : sgrid C) (f : place -> C) : Prop :=
  sg_box g = b /\ sg_topo g = topo /\ sg_rad g = edge_radii t R /\ sg_act g = soa_dims t R (b_dim b) /\ sg_edge g = f None /\
  exists ez ey ex F, sizes (soa_dims t R (b_dim b)) = Some [ez; ey; ex] /\ m3 [ez; ey; ex] (sg_mem g) F /\
    forall p, in_grid (soa_dims t R (b_dim b)) p -> F (Some p) = f (pl t R (b_dim b) p).

Lemma soa_dims_3 dims : length t = length dims -> allpos dims ->
  exists gz gy gx, soa_dims t R dims = [gz; gy; gx] /\ 0 < gz /\ 0 < gy /\ 0 < gx.
Proof using Hl3 Hne HR.
  intros Hl Hp. d123 t dims; unfold allpos in *; repeat match goal with H : Forall _ (_ :: _) |- _ => apply Forall_cons_iff' in H; destruct H end;
    unfold soa_dims; cbn -[Z.mul Z.add]; do 3 eexists; (split; [reflexivity|]); repeat split;
    repeat match goal with |- context [if ?w then _ else _] => destruct w end; lia.
Qed.

Lemma radii_3 dims : length t = length dims -> allpos dims ->
  exists rz ry rx gz gy gx, edge_radii t R = [rz; ry; rx] /\ soa_dims t R dims = [gz; gy; gx] /\ 0 <= rx /\ 2 * rx <= gx.
Proof using Hl3 Hne HR.
  intros Hl Hp. d123 t dims; unfold allpos in *; repeat match goal with H : Forall _ (_ :: _) |- _ => apply Forall_cons_iff' in H; destruct H end;
    unfold soa_dims, edge_radii, pad; cbn -[Z.mul Z.add]; do 6 eexists; (split; [reflexivity|]); (split; [reflexivity|]); split;
    repeat match goal with |- context [if ?w then _ else _] => destruct w end; lia.
Qed.

Lemma sizes_3 dims e : length t = length dims -> allpos dims -> sizes (soa_dims t R dims) = Some e ->
  exists ez ey ex gz gy gx, e = [ez; ey; ex] /\ soa_dims t R dims = [gz; gy; gx] /\ 0 < gz <= ez /\ 0 < gy <= ey /\ 0 < gx <= ex.
Proof using Hl3 Hne HR Hsz.
  intros Hl Hp E. destruct (soa_dims_3 dims Hl Hp) as (gz & gy & gx & Eg & H1 & H2 & H3). apply Hsz in E. rewrite Eg in E.
  inversion E as [|? ez ? e1 L1 E1]; subst. inversion E1 as [|? ey ? e2 L2 E2]; subst. inversion E2 as [|? ex ? e3 L3 E3]; subst. inversion E3; subst.
  exists ez, ey, ex, gz, gy, gx. split; [reflexivity|]. split; [exact Eg|]. lia.
Qed.

(** A row of cells inside of the grid. *)
Lemma row_in dims pre lo hi : length t = length dims -> length t = S (length pre) -> lo < hi ->
  (forall x, lo <= x < hi -> in_grid dims (pre ++ [x])) ->
  exists z y r gz gy gx, (forall x, emb t R (pre ++ [x]) = [z; y; r + x]) /\ soa_dims t R dims = [gz; gy; gx] /\
    0 <= z < gz /\ 0 <= y < gy /\ 0 <= r + lo /\ r + hi <= gx.
Proof using Hl3 Hne HR.
  intros Hl Hp Hlt Hin. destruct (emb_row t R pre Hp Hl3) as (z & y & r & E).
  destruct (emb_in t R dims (pre ++ [lo]) Hl Hl3 Hne HR (Hin lo ltac:(lia))) as [H1 _].
  destruct (emb_in t R dims (pre ++ [hi - 1]) Hl Hl3 Hne HR (Hin (hi - 1) ltac:(lia))) as [H2 _].
  rewrite E in H1, H2. pose proof (in_grid_length _ _ H1) as Hd. destruct (soa_dims t R dims) as [|gz [|gy [|gx [|]]]]; try discriminate.
  unfold in_grid in H1, H2. cbn in H1, H2. exists z, y, r, gz, gy, gx. split; [exact E|]. split; [reflexivity|]. lia.
Qed.

Context (b : box) (topo : coord).
Context (Hld : length (b_dim b) = length t) (Hlo : length (b_origin b) = length t) (Hp : allpos (b_dim b)).
Let dims := b_dim b.
Let act := soa_dims t R dims.

Lemma srep_ext g f f' : srep b topo g f -> (forall p, f p = f' p) -> srep b topo g f'.
Proof using.
  intros (H1 & H2 & H3 & H4 & H5 & ez & ey & ex & F & H6 & H7 & H8) H. repeat (split; [assumption|]). split; [now rewrite <- H|].
  exists ez, ey, ex, F. split; [assumption|]. split; [assumption|]. intros p Hp'. rewrite <- H. auto.
Qed.

(** Reading and writing rows *)

Lemma mem_at ez ey ex (m : list C) F (f : place -> C) c : sizes act = Some [ez; ey; ex] -> m3 [ez; ey; ex] m F ->
  (forall p, in_grid act p -> F (Some p) = f (pl t R dims p)) -> in_grid dims c ->
  vec_get m (gen_index [ez; ey; ex] (emb t R c)) = Some (f (Some c)).
Proof using Hl3 Hne HR Hsz Hld Hlo Hp.
  intros Es Rm Hf Hc. destruct (emb_in t R dims c (eq_sym Hld) Hl3 Hne HR Hc) as [H1 H2].
  destruct (sizes_3 dims _ (eq_sym Hld) Hp Es) as (ez' & ey' & ex' & gz & gy & gx & Ee & Eg & L1 & L2 & L3). assert (ez' = ez /\ ey' = ey /\ ex' = ex) as (-> & -> & ->) by (repeat split; congruence).
  pose proof H1 as H1'. fold act in H1'. rewrite Eg in H1. pose proof (in_grid_length _ _ H1) as Hl. destruct (emb t R c) as [|z [|y [|x [|]]]] eqn:Ec; try discriminate.
  unfold in_grid in H1. cbn in H1. rewrite (m3_get ez ey ex m F z y x Rm) by lia. rewrite Hf by exact H1'. now rewrite H2.
Qed.

Lemma sg_get_place g f c : srep b topo g f -> in_grid dims c ->
  obind (sizes (sg_act g)) (fun ext => vec_get (sg_mem g) (sg_index g ext c)) = Some (f (Some c)).
Proof using Hl3 Hne HR Hsz Hld Hlo Hp.
  intros (H1 & H2 & H3 & H4 & H5 & ez & ey & ex & F & H6 & H7 & H8) Hc. rewrite H4, H6. cbn [obind]. unfold sg_index. rewrite H3. fold (emb t R c).
  now apply (mem_at ez ey ex (sg_mem g) F f).
Qed.

(** Writing at places inside of the grid: what holds for the memory carries
    over to the contents. *)
Lemma carry_writes ws : forall (F f : place -> C), Forall (fun w => in_grid dims (fst w)) ws ->
  (forall p, in_grid act p -> F (Some p) = f (pl t R dims p)) ->
  forall p, in_grid act p -> last_written F (map (fun w => (Some (emb t R (fst w)), snd w)) ws) (Some p) =
    last_written f (map (fun w => (Some (fst w), snd w)) ws) (pl t R dims p).
Proof using Hl3 Hne HR Hsz Hld Hlo Hp.
  induction ws as [|[c v] ws IH]; intros F f Hw Hf p Hi; [now apply Hf|]. inversion Hw as [|? ? Hc Hw']; subst. cbn [fst] in Hc. cbn [map fst snd]. rewrite !last_written_cons.
  apply IH; auto. intros q Hq. unfold upd. destruct (emb_in t R dims c (eq_sym Hld) Hl3 Hne HR Hc) as [_ E].
  destruct (place_dec (Some (emb t R c)) (Some q)) as [E1|E1], (place_dec (Some c) (pl t R dims q)) as [E2|E2]; auto.
  - exfalso. apply E2. assert (emb t R c = q) as <- by congruence. now rewrite E.
  - exfalso. apply E1. symmetry in E2. apply pl_inv in E2; auto. destruct E2 as [_ ->]. reflexivity.
Qed.

Lemma carry_modify ops : forall (F f : place -> C), Forall (fun w => in_grid dims (fst w)) ops ->
  (forall p, in_grid act p -> F (Some p) = f (pl t R dims p)) ->
  forall p, in_grid act p -> modify F (map (fun w => (Some (emb t R (fst w)), snd w)) ops) (Some p) =
    modify f (map (fun w => (Some (fst w), snd w)) ops) (pl t R dims p).
Proof using Hl3 Hne HR Hsz Hld Hlo Hp.
  induction ops as [|[c h] ops IH]; intros F f Hw Hf p Hi; [now apply Hf|]. inversion Hw as [|? ? Hc Hw']; subst. cbn [fst] in Hc. cbn [map fst snd modify fold_left].
  apply (IH (GridFacts.upd F (Some (emb t R c)) (h (F (Some (emb t R c))))) (GridFacts.upd f (Some c) (h (f (Some c))))); auto.
  intros q Hq. unfold upd. destruct (emb_in t R dims c (eq_sym Hld) Hl3 Hne HR Hc) as [Hi' E].
  destruct (place_dec (Some (emb t R c)) (Some q)) as [E1|E1], (place_dec (Some c) (pl t R dims q)) as [E2|E2]; auto.
  - now rewrite Hf, E.
  - exfalso. apply E2. assert (emb t R c = q) as <- by congruence. now rewrite E.
  - exfalso. apply E1. symmetry in E2. apply pl_inv in E2; auto. destruct E2 as [_ ->]. reflexivity.
Qed.

Lemma srep_with g f m ez ey ex F f' : srep b topo g f -> sizes act = Some [ez; ey; ex] -> m3 [ez; ey; ex] m F ->
  (forall p, in_grid act p -> F (Some p) = f' (pl t R dims p)) -> f' None = f None -> srep b topo (sg_with g m) f'.
Proof using.
  intros (H1 & H2 & H3 & H4 & H5 & _) E Rm Hf Hn. repeat (split; [assumption|]). split; [cbn; congruence|]. exists ez, ey, ex, F. auto.
Qed.

Lemma put_row g f pre lo hi vs : srep b topo g f -> length t = S (length pre) -> lo <= hi ->
  (forall x, lo <= x < hi -> in_grid dims (pre ++ [x])) -> (Z.to_nat (hi - lo) <= length vs)%nat ->
  exists m, obind (sizes (sg_act g)) (fun ext => vec_write (sg_mem g) (gen_index ext (emb t R (pre ++ [lo]))) (Z.to_nat (hi - lo)) vs) = Some m /\
    srep b topo (sg_with g m) (last_written f (combine (map (fun x => Some (pre ++ [x])) (zrange lo hi)) vs)).
Proof using Hl3 Hne HR Hsz Hld Hlo Hp.
  intros Rg Hpre Hle Hin Hv. pose proof Rg as (H1 & H2 & H3 & H4 & H5 & ez & ey & ex & F & H6 & H7 & H8). rewrite H4, H6. cbn [obind].
  destruct (Z.eq_dec lo hi) as [->|Hn].
  { replace (Z.to_nat (hi - hi)) with O by lia. rewrite zrange_nil by lia. exists (sg_mem g). split; [reflexivity|]. destruct g. exact Rg. }
  destruct (row_in dims pre lo hi (eq_sym Hld) Hpre ltac:(lia) Hin) as (z & y & r & gz & gy & gx & Er & Eg & L1 & L2 & L3 & L4).
  destruct (sizes_3 dims _ (eq_sym Hld) Hp H6) as (ez' & ey' & ex' & gz' & gy' & gx' & Ee & Eg' & M1 & M2 & M3). assert (ez' = ez /\ ey' = ey /\ ex' = ex) as (-> & -> & ->) by (repeat split; congruence).
  assert (gz' = gz /\ gy' = gy /\ gx' = gx) as (-> & -> & ->) by (repeat split; congruence).
  rewrite Er. destruct (m3_write ez ey ex ltac:(lia) ltac:(lia) ltac:(lia) z y ltac:(lia) ltac:(lia) (Z.to_nat (hi - lo)) (r + lo) (sg_mem g) F vs H7) as (m & E & Rm); try lia.
  exists m. split; [exact E|]. apply (srep_with g f m ez ey ex _ _ Rg H6 Rm).
  - assert (Ew : forall vs lo, lo <= hi -> (Z.to_nat (hi - lo) <= length vs)%nat ->
      combine (map (fun x' => Some [z; y; x']) (zrange (r + lo) (r + lo + Z.of_nat (Z.to_nat (hi - lo))))) vs = map (fun w : coord * C => (Some (emb t R (fst w)), snd w)) (combine (map (fun x => pre ++ [x]) (zrange lo hi)) vs) /\
      combine (map (fun x => Some (pre ++ [x])) (zrange lo hi)) vs = map (fun w : coord * C => (Some (fst w), snd w)) (combine (map (fun x => pre ++ [x]) (zrange lo hi)) vs)).
    { clear - Er. intros vs lo Hle. remember (Z.to_nat (hi - lo)) as n eqn:En. revert vs lo Hle En. induction n as [|n IH]; intros vs lo Hle En Hv.
      - rewrite !zrange_nil by lia. split; reflexivity.
      - destruct vs as [|v vs]; [cbn in Hv; lia|]. rewrite (zrange_cons lo hi) by lia. rewrite (zrange_cons (r + lo)) by lia. cbn [map combine fst snd]. rewrite Er.
        destruct (IH vs (lo + 1) ltac:(lia) ltac:(lia) ltac:(cbn in Hv; lia)) as [I1 I2]. split; [|now rewrite I2].
        rewrite <- I1. replace (r + lo + 1) with (r + (lo + 1)) by lia. replace (r + (lo + 1) + Z.of_nat n) with (r + lo + Z.of_nat (S n)) by lia. reflexivity. }
    destruct (Ew vs lo Hle Hv) as [E1 E2]. rewrite E1, E2. apply carry_writes; auto.
    apply Forall_forall. intros [c v] Hc. apply in_combine_l in Hc. apply in_map_iff in Hc. destruct Hc as (x & <- & Hx). apply zrange_in in Hx. apply Hin. lia.
  - apply last_written_other. intros [q v] Hq E'. apply in_combine_l in Hq. apply in_map_iff in Hq. destruct Hq as (x & Eq & _). cbn in E'. congruence.
Qed.

Lemma get_row g f pre lo hi : srep b topo g f -> length t = S (length pre) -> lo <= hi ->
  (forall x, lo <= x < hi -> in_grid dims (pre ++ [x])) ->
  obind (sizes (sg_act g)) (fun ext => vec_read (sg_mem g) (gen_index ext (emb t R (pre ++ [lo]))) (Z.to_nat (hi - lo))) =
    Some (map (fun x => f (Some (pre ++ [x]))) (zrange lo hi)).
Proof using Hl3 Hne HR Hsz Hld Hlo Hp.
  intros Rg Hpre Hle Hin. pose proof Rg as (H1 & H2 & H3 & H4 & H5 & ez & ey & ex & F & H6 & H7 & H8). rewrite H4, H6. cbn [obind].
  destruct (Z.eq_dec lo hi) as [->|Hn]; [replace (Z.to_nat (hi - hi)) with O by lia; rewrite zrange_nil by lia; reflexivity|].
  destruct (row_in dims pre lo hi (eq_sym Hld) Hpre ltac:(lia) Hin) as (z & y & r & gz & gy & gx & Er & Eg & L1 & L2 & L3 & L4).
  destruct (sizes_3 dims _ (eq_sym Hld) Hp H6) as (ez' & ey' & ex' & gz' & gy' & gx' & Ee & Eg' & M1 & M2 & M3). assert (ez' = ez /\ ey' = ey /\ ex' = ex) as (-> & -> & ->) by (repeat split; congruence).
  assert (gz' = gz /\ gy' = gy /\ gx' = gx) as (-> & -> & ->) by (repeat split; congruence).
  rewrite Er, (m3_read ez ey ex (sg_mem g) F z y H7 ltac:(lia) ltac:(lia)) by lia. f_equal.
  assert (Hm : forall n lo', lo <= lo' -> n = Z.to_nat (hi - lo') -> map (fun x' => F (Some [z; y; x'])) (zrange (r + lo') (r + lo' + Z.of_nat n)) = map (fun x => f (Some (pre ++ [x]))) (zrange lo' hi)).
  { induction n as [|n IH]; intros lo' Hlo' En; [rewrite !zrange_nil by lia; reflexivity|]. rewrite (zrange_cons lo' hi) by lia. rewrite (zrange_cons (r + lo')) by lia. cbn [map]. f_equal.
    - rewrite <- Er. destruct (emb_in t R dims (pre ++ [lo']) (eq_sym Hld) Hl3 Hne HR (Hin lo' ltac:(lia))) as [I1 I2]. rewrite H8 by exact I1. fold dims. now rewrite I2.
    - rewrite <- (IH (lo' + 1)) by lia. replace (r + lo' + 1) with (r + (lo' + 1)) by lia. replace (r + (lo' + 1) + Z.of_nat n) with (r + lo' + Z.of_nat (S n)) by lia. reflexivity. }
  now apply Hm.
Qed.

(** Padding *)
Lemma srep_content (init : bool) g m edge inner (f : place -> C) ez ey ex F : sizes act = Some [ez; ey; ex] -> m3 [ez; ey; ex] m F ->
  sg_box g = b -> sg_topo g = topo -> sg_rad g = edge_radii t R -> sg_act g = act -> sg_edge g = edge ->
  (forall p c, in_grid act p -> pl t R dims p = Some c -> (if init then inner else F (Some p)) = f (Some c)) -> f None = edge ->
  exists m', set_content init [ez; ey; ex] (sg_act g) (sg_rad g) edge inner m = Some m' /\ srep b topo (sg_with g m') f.
Proof using Hl3 Hne HR Hsz Hld Hlo Hp.
  intros Es Rm E1 E2 E3 E4 E5 Hf Hn. destruct (radii_3 dims (eq_sym Hld) Hp) as (rz & ry & rx & gz & gy & gx & Er & Eg & L1 & L2).
  destruct (sizes_3 dims _ (eq_sym Hld) Hp Es) as (ez' & ey' & ex' & gz' & gy' & gx' & Ee & Eg' & M1 & M2 & M3). assert (ez' = ez /\ ey' = ey /\ ex' = ex) as (-> & -> & ->) by (repeat split; congruence).
  assert (gz' = gz /\ gy' = gy /\ gx' = gx) as (-> & -> & ->) by (repeat split; congruence).
  destruct (set_content_spec init ez ey ex gz gy gx rz ry rx edge inner m F Rm) as (m' & F' & E & R' & HF); try lia.
  exists m'. rewrite E3, E4, Er. fold act in Eg. rewrite Eg. split; [exact E|]. repeat (split; [assumption|]). split; [cbn; congruence|].
  exists ez, ey, ex, F'. split; [assumption|]. split; [assumption|]. intros p Hi. fold dims in Hi |- *. fold act in Hi. rewrite Eg in Hi. pose proof (in_grid_length _ _ Hi) as Hlp.
  destruct p as [|z [|y [|x [|]]]]; try discriminate. pose proof Hi as Hi'. unfold in_grid in Hi'. cbn in Hi'. rewrite HF by lia.
  rewrite <- Eg in Hi. pose proof (pl_edge t R dims z y x (eq_sym Hld) Hl3 Hne HR Hi) as He. fold act in He. rewrite Eg, Er in He. rewrite He.
  destruct (pl t R dims [z; y; x]) as [c|] eqn:Ep; [|now rewrite Hn]. now apply Hf.
Qed.

Lemma srep_edge g f v : srep b topo g f -> exists g', sg_set_edge sizes g v = Some g' /\ srep b topo g' (upd f None v).
Proof using Hl3 Hne HR Hsz Hld Hlo Hp.
  intros Rg. pose proof Rg as (H1 & H2 & H3 & H4 & H5 & ez & ey & ex & F & H6 & H7 & H8). unfold sg_set_edge. rewrite H4, H6. cbn [obind].
  destruct (srep_content false (mkSGrid (sg_box g) (sg_topo g) v (sg_rad g) (sg_act g) (sg_mem g)) (sg_mem g) v v (upd f None v) ez ey ex F) as (m' & E & R'); auto.
  - intros p c Hi Ep. rewrite H8 by exact Hi. fold dims. now rewrite Ep.
  - cbn [sg_rad sg_act] in E. rewrite H4 in E. rewrite E. cbn [option_map]. eexists. split; [reflexivity|]. cbn [sg_with sg_box sg_topo sg_edge sg_rad sg_act] in R'. now rewrite H4 in R'.
Qed.

Lemma m3_map (j : Z -> C) e : allpos e -> exists F, m3 e (map j (zrange 0 (prod e))) F.
Proof using.
  clear - j. intros Ha. exists (fun q => match q with Some p => j (to_index p e) | None => j 0 end), (j 0). split; [reflexivity|]. split; [cbn; rewrite map_length, zrange_length; lia|]. split; [reflexivity|].
  intros p Hi. pose proof (to_index_bound e Ha p Hi) as Hb. cbn [g_cells]. unfold vec_get. destruct (Z.ltb_spec (to_index p e) 0); [lia|]. apply map_nth_error.
  replace (Some (to_index p e)) with (Some (0 + Z.of_nat (Z.to_nat (to_index p e)))) by (f_equal; lia).
  unfold zrange. apply (map_nth_error (fun k => 0 + Z.of_nat k)). rewrite (nth_error_nth' _ 0%nat) by (rewrite seq_length; lia). rewrite seq_nth by lia. reflexivity.
Qed.

Lemma srep_make junk dflt edge : (exists g, sg_make t R sizes junk b dflt edge topo = Some g /\ srep b topo g (fresh dflt edge)) \/
  (sizes act = None /\ sg_make t R sizes junk b dflt edge topo = None).
Proof using Hl3 Hne HR Hsz Hld Hlo Hp.
  unfold sg_make, sg_resize0. cbn [sg_rad sg_act sg_mem sg_topo sg_edge]. fold dims. rewrite (act_dims t R dims (eq_sym Hld) Hl3 Hne). fold act. unfold mem_resize.
  destruct (soa_dims_3 dims (eq_sym Hld) Hp) as (gz & gy & gx & Eg & L1 & L2 & L3). fold act in Eg.
  destruct (CoordModel.coord_eqb [0; 0; 0] act) eqn:Ec; [apply coord_eqb_eq in Ec; rewrite Eg in Ec; exfalso; assert (gx = 0) by congruence; lia|].
  destruct (sizes act) as [e|] eqn:Es; [|right; split; reflexivity]. left. cbn [option_map obind sg_act sg_rad sg_mem]. rewrite Es. cbn [obind].
  destruct (sizes_3 dims e (eq_sym Hld) Hp Es) as (ez & ey & ex & gz' & gy' & gx' & -> & Eg' & M1 & M2 & M3).
  destruct (m3_map junk [ez; ey; ex]) as (F & RF); [repeat constructor; lia|].
  destruct (srep_content true (mkSGrid b topo edge (edge_radii t R) act (map junk (zrange 0 (prod [ez; ey; ex])))) (map junk (zrange 0 (prod [ez; ey; ex]))) edge dflt (fresh dflt edge) ez ey ex F) as (m' & E & R'); auto.
  cbn [sg_rad sg_act] in E. rewrite E. eexists. split; [reflexivity|exact R'].
Qed.

(** Streaks inside of the box *)
Lemma streak_rel s : s_x s < s_e s -> Forall (in_box b) (streak_coords s) ->
  length t = S (length (s_pre s)) /\ exists ob o, b_origin b = ob ++ [o] /\ length ob = length (s_pre s) /\
    (forall x, zsub (s_pre s ++ [x]) (b_origin b) = zsub (s_pre s) ob ++ [x - o]) /\
    (forall x, s_x s - o <= x < s_e s - o -> in_grid dims (zsub (s_pre s) ob ++ [x])).
Proof using Hl3 Hne HR Hsz Hld Hlo Hp.
  intros Hx Hb. assert (Hin : forall x, s_x s <= x < s_e s -> length (s_pre s ++ [x]) = length dims /\ in_grid dims (zsub (s_pre s ++ [x]) (b_origin b))).
  { intros x Hx'. rewrite Forall_forall in Hb. specialize (Hb (s_pre s ++ [x])). unfold in_box in Hb. rewrite in_box_zsub in Hb by lia. fold dims in Hb. apply Hb. unfold streak_coords.
    apply in_map_iff. exists x. split; [reflexivity|]. now apply zrange_in. }
  pose proof (Hin (s_x s) ltac:(lia)) as [Hl0 _]. rewrite app_length in Hl0. cbn in Hl0. unfold dims in Hl0. split; [lia|].
  destruct (snoc_parts (b_origin b) (length (s_pre s)) 0) as [Eo Hlob]; [lia|]. exists (removelast (b_origin b)), (last (b_origin b) 0). split; [exact Eo|]. split; [exact Hlob|].
  assert (Es : forall x, zsub (s_pre s ++ [x]) (b_origin b) = zsub (s_pre s) (removelast (b_origin b)) ++ [x - last (b_origin b) 0]).
  { intros x. rewrite Eo at 1. apply zsub_snoc. lia. }
  split; [exact Es|]. intros x Hx'. replace x with (x + last (b_origin b) 0 - last (b_origin b) 0) by lia. rewrite <- Es. apply Hin. lia.
Qed.

(** ** Accesses *)
Context (correct : bool) (Htopo : correct = true -> Forall2 Z.le dims topo).

Lemma sg_coord_cases g f c : srep b topo g f -> soa_coord t correct b topo c ->
  (out_of_bounds t (sg_coord t correct g c) dims = true /\ ddenotes t correct b topo c = None) \/
  (out_of_bounds t (sg_coord t correct g c) dims = false /\ ddenotes t correct b topo c = Some (sg_coord t correct g c) /\ in_grid dims (sg_coord t correct g c)).
Proof using Hl3 Hne HR Hsz Hld Hlo Hp Htopo.
  intros (H1 & H2 & _) Hc. unfold sg_coord, ddenotes. rewrite H1, H2. unfold soa_coord in Hc. destruct (bool_cases correct) as [Ec|Ec]; rewrite Ec in *.
  - specialize (Htopo eq_refl). pose proof (forall2_length _ _ _ Htopo) as Hlt. pose proof (forall2_le_pos _ _ Hp Htopo) as Hpt. destruct Hc as (Hlc & Hcl & Hin).
    unfold normalize. destruct (out_of_bounds t (zsub c (b_origin b)) topo) eqn:Eo.
    + left. split; [|apply denotes_oob; auto; unfold dims in *; lia]. apply (oob_diag2 t topo dims); auto; unfold dims in *; try lia. rewrite zsub_length by lia. lia.
    + right. destruct (denotes_in t topo (zsub c (b_origin b))) as [Ed _]; auto; [unfold dims in *; lia|]. specialize (Hin _ Ed). split; [|split; assumption].
      destruct (out_of_bounds t (normalize_edges (zsub c (b_origin b)) topo) dims) eqn:Eo'; [|reflexivity].
      apply denotes_oob in Eo'; auto. rewrite denotes_self in Eo' by auto. discriminate.
  - destruct Hc as (Hlc & Hin). fold dims in Hin |- *. destruct (out_of_bounds t (zsub c (b_origin b)) dims) eqn:Eo.
    + left. split; [reflexivity|]. apply denotes_oob; auto.
    + right. split; [reflexivity|].
      destruct (in_denotes t dims (zsub c (b_origin b))) as (c' & E & Hi); auto; [rewrite zsub_length by lia; unfold dims; lia|]. rewrite E.
      specialize (Hin _ E). subst c'. split; [reflexivity|exact Hi].
Qed.

Lemma srep_get g f c : srep b topo g f -> soa_coord t correct b topo c -> sg_get t correct sizes g c = Some (f (ddenotes t correct b topo c)).
Proof using Hl3 Hne HR Hsz Hld Hlo Hp Htopo.
  intros Rg Hc. pose proof Rg as (H1 & _ & _ & _ & H5 & _). unfold sg_get. rewrite H1. fold dims. destruct (sg_coord_cases g f c Rg Hc) as [[-> ->]|(-> & -> & Hi)].
  - now rewrite H5.
  - now apply (sg_get_place g f).
Qed.

Lemma index_emb g f c : srep b topo g f -> forall ext, sg_index g ext c = gen_index ext (emb t R c).
Proof using. intros (_ & _ & H3 & _) ext. unfold sg_index, emb. now rewrite H3. Qed.

Lemma srep_set g f c v : srep b topo g f -> soa_coord t correct b topo c ->
  exists g', sg_set t correct sizes g c v = Some g' /\ srep b topo g' (upd f (ddenotes t correct b topo c) v).
Proof using Hl3 Hne HR Hsz Hld Hlo Hp Htopo.
  intros Rg Hc. pose proof Rg as (H1 & _). unfold sg_set. rewrite H1. fold dims. destruct (sg_coord_cases g f c Rg Hc) as [[-> ->]|(-> & -> & Hi)].
  - now apply srep_edge.
  - set (rel := sg_coord t correct g c) in *. pose proof (in_grid_length _ _ Hi) as Hlr. destruct (snoc_parts rel (length t - 1) 0) as [Es Hlen]; [unfold dims in *; destruct t; [congruence|cbn [length] in *; lia]|].
    destruct (put_row g f (removelast rel) (last rel 0) (last rel 0 + 1) [v] Rg) as (m & E & R').
    + destruct t; [congruence|cbn [length] in *; lia].
    + lia.
    + intros x Hx. assert (x = last rel 0) as -> by lia. now rewrite <- Es.
    + cbn. lia.
    + replace (Z.to_nat (last rel 0 + 1 - last rel 0)) with 1%nat in E by lia. rewrite <- Es in E. rewrite zrange_cons, zrange_nil in R' by lia. cbn [map combine] in R'. rewrite <- Es in R'.
      destruct (sizes (sg_act g)) as [ext|]; [|discriminate]. cbn [obind vec_write] in E |- *. rewrite (index_emb g f rel Rg).
      destruct (vec_set (sg_mem g) (gen_index ext (emb t R rel)) v) as [m1|]; [|discriminate]. cbn [obind] in E. assert (m1 = m) as -> by congruence. cbn [option_map].
      eexists. split; [reflexivity|]. exact R'.
Qed.

Lemma box_ddenotes c : in_box b c -> soa_coord t correct b topo c /\ ddenotes t correct b topo c = Some (zsub c (b_origin b)).
Proof using Hl3 Hne HR Hsz Hld Hlo Hp Htopo.
  intros Hc. unfold in_box in Hc. apply in_box_zsub in Hc; [|lia]. destruct Hc as [Hlc Hc]. fold dims in Hlc, Hc. unfold soa_coord, reachable_coord, ddenotes. fold dims.
  destruct (bool_cases correct) as [Ec|Ec]; rewrite Ec in *.
  - specialize (Htopo eq_refl). pose proof (forall2_length _ _ _ Htopo) as Hlt. pose proof (in_grid_le _ _ Htopo _ Hc) as Hc'. pose proof (forall2_le_pos _ _ Hp Htopo) as Hpt.
    assert (E : denotes t topo (zsub c (b_origin b)) = Some (zsub c (b_origin b))) by (apply denotes_self; auto; unfold dims in *; lia). split; [|exact E].
    split; [unfold dims in *; lia|]. split; [now apply in_grid_close|]. intros c' E'. rewrite E in E'. assert (c' = zsub c (b_origin b)) as -> by congruence. exact Hc.
  - assert (E : denotes t dims (zsub c (b_origin b)) = Some (zsub c (b_origin b))) by (apply denotes_self; auto; unfold dims in *; lia). split; [|exact E].
    split; [unfold dims in *; lia|]. intros c' E'. rewrite E in E'. congruence.
Qed.

Lemma sg_coord_box g f c : srep b topo g f -> in_box b c -> sg_coord t correct g c = zsub c (b_origin b).
Proof using Hl3 Hne HR Hsz Hld Hlo Hp Htopo.
  intros Rg Hc. destruct (box_ddenotes c Hc) as [H1 H2]. destruct (sg_coord_cases g f c Rg H1) as [[_ E]|(_ & E & _)]; rewrite H2 in E; [discriminate|congruence].
Qed.

Lemma in_streak_coords s x : s_x s <= x < s_e s -> In (s_pre s ++ [x]) (streak_coords s).
Proof using. intros Hx. unfold streak_coords. apply in_map_iff. exists x. split; [reflexivity|]. now apply zrange_in. Qed.

Lemma map_shift {A} (h : Z -> A) o : forall n lo, map (fun x => h (x - o)) (zrange lo (lo + Z.of_nat n)) = map h (zrange (lo - o) (lo - o + Z.of_nat n)).
Proof using.
  clear - h. induction n as [|n IH]; intros lo; [rewrite !zrange_nil by lia; reflexivity|]. rewrite (zrange_cons lo), (zrange_cons (lo - o)) by lia. cbn [map]. f_equal.
  replace (lo + Z.of_nat (S n)) with (lo + 1 + Z.of_nat n) by lia. replace (lo - o + Z.of_nat (S n)) with (lo + 1 - o + Z.of_nat n) by lia. replace (lo - o + 1) with (lo + 1 - o) by lia. apply IH.
Qed.

Lemma streak_places s ob o : s_x s <= s_e s -> Forall (in_box b) (streak_coords s) -> (forall x, zsub (s_pre s ++ [x]) (b_origin b) = zsub (s_pre s) ob ++ [x - o]) ->
  map (ddenotes t correct b topo) (streak_coords s) = map (fun x => Some (zsub (s_pre s) ob ++ [x])) (zrange (s_x s - o) (s_e s - o)).
Proof using Hl3 Hne HR Hsz Hld Hlo Hp Htopo.
  intros Hx Hb Es. transitivity (map (fun x => Some (zsub (s_pre s) ob ++ [x - o])) (zrange (s_x s) (s_e s))).
  - unfold streak_coords in *. rewrite map_map. apply map_ext_in. intros x Hi. rewrite <- Es. apply box_ddenotes. rewrite Forall_map, Forall_forall in Hb. now apply Hb.
  - replace (s_e s) with (s_x s + Z.of_nat (Z.to_nat (s_e s - s_x s))) by lia. rewrite (map_shift (fun x => Some (zsub (s_pre s) ob ++ [x]))). f_equal. f_equal. lia.
Qed.

Lemma srep_set_streak g f s vs : srep b topo g f -> s_x s <= s_e s -> Forall (in_box b) (streak_coords s) -> (length (streak_coords s) <= length vs)%nat ->
  exists g', sg_set_streak t correct sizes g s vs = Some g' /\ srep b topo g' (last_written f (combine (map (ddenotes t correct b topo) (streak_coords s)) vs)).
Proof using Hl3 Hne HR Hsz Hld Hlo Hp Htopo.
  intros Rg Hx Hb Hv. unfold sg_set_streak. destruct (Z.ltb_spec (s_e s) (s_x s)); [lia|]. destruct (Z.eq_dec (s_x s) (s_e s)) as [Ee|Hn].
  { replace (Z.to_nat (s_e s - s_x s)) with O by lia. unfold streak_coords. rewrite zrange_nil by lia. cbn [map combine vec_write]. pose proof Rg as (_ & _ & _ & H4 & _ & ez & ey & ex & F & H6 & _). rewrite H4, H6. cbn [obind option_map].
    eexists. split; [reflexivity|]. destruct g. exact Rg. }
  destruct (streak_rel s ltac:(lia) Hb) as (Hlt & ob & o & Eo & Hlob & Es & Hin).
  assert (Ho : sg_coord t correct g (s_origin s) = zsub (s_pre s) ob ++ [s_x s - o]).
  { unfold s_origin. rewrite (sg_coord_box g f _ Rg); [apply Es|]. rewrite Forall_forall in Hb. apply Hb, in_streak_coords. lia. }
  destruct (put_row g f (zsub (s_pre s) ob) (s_x s - o) (s_e s - o) vs Rg) as (m & E & R'); auto; try lia.
  { rewrite zsub_length by lia. lia. }
  { rewrite streak_coords_length in Hv. lia. }
  replace (s_e s - o - (s_x s - o)) with (s_e s - s_x s) in E by lia. rewrite Ho. destruct (sizes (sg_act g)) as [ext|]; [|discriminate]. cbn [obind] in E |- *.
  rewrite (index_emb g f _ Rg), E. cbn [option_map]. eexists. split; [reflexivity|]. now rewrite (streak_places s ob o).
Qed.

Lemma srep_get_streak g f s : srep b topo g f -> s_x s <= s_e s -> Forall (in_box b) (streak_coords s) ->
  sg_get_streak t correct sizes g s = Some (map (fun c => f (ddenotes t correct b topo c)) (streak_coords s)).
Proof using Hl3 Hne HR Hsz Hld Hlo Hp Htopo.
  intros Rg Hx Hb. unfold sg_get_streak. destruct (Z.ltb_spec (s_e s) (s_x s)); [lia|]. destruct (Z.eq_dec (s_x s) (s_e s)) as [Ee|Hn].
  { replace (Z.to_nat (s_e s - s_x s)) with O by lia. unfold streak_coords. rewrite zrange_nil by lia. pose proof Rg as (_ & _ & _ & H4 & _ & ez & ey & ex & F & H6 & _). rewrite H4, H6. reflexivity. }
  destruct (streak_rel s ltac:(lia) Hb) as (Hlt & ob & o & Eo & Hlob & Es & Hin).
  assert (Ho : sg_coord t correct g (s_origin s) = zsub (s_pre s) ob ++ [s_x s - o]).
  { unfold s_origin. rewrite (sg_coord_box g f _ Rg); [apply Es|]. rewrite Forall_forall in Hb. apply Hb, in_streak_coords. lia. }
  pose proof (get_row g f (zsub (s_pre s) ob) (s_x s - o) (s_e s - o) Rg ltac:(rewrite zsub_length by lia; lia) ltac:(lia) Hin) as E.
  replace (s_e s - o - (s_x s - o)) with (s_e s - s_x s) in E by lia. rewrite Ho. destruct (sizes (sg_act g)) as [ext|]; [|discriminate]. cbn [obind] in E |- *.
  rewrite (index_emb g f _ Rg), E. f_equal. rewrite <- (map_map (ddenotes t correct b topo) f), (streak_places s ob o) by auto. now rewrite map_map.
Qed.

Lemma srep_op g f o : srep b topo g f -> access_ok (soa_coord t correct b topo) (in_box b) o ->
  exists g', sg_op t correct sizes g o = Some g' /\ srep b topo g' (last_written f (writes (ddenotes t correct b topo) o)).
Proof using Hl3 Hne HR Hsz Hld Hlo Hp Htopo.
  intros Rg Ho. destruct o as [c v|s vs|v]; cbn [sg_op writes access_ok] in *.
  - now apply srep_set.
  - destruct Ho as (H1 & H2 & H3). apply srep_set_streak; auto. lia.
  - now apply srep_edge.
Qed.

Lemma srep_ops l : forall g f, srep b topo g f -> Forall (access_ok (soa_coord t correct b topo) (in_box b)) l ->
  exists g', sg_ops t correct sizes g l = Some g' /\ srep b topo g' (last_written f (flat_map (writes (ddenotes t correct b topo)) l)).
Proof using Hl3 Hne HR Hsz Hld Hlo Hp Htopo.
  induction l as [|o l IH]; intros g f Hr Hok; [exists g; now split|].
  inversion Hok as [|? ? H1 H2]; subst. destruct (srep_op g f o Hr H1) as (g1 & E1 & R1). cbn [sg_ops flat_map]. rewrite E1. cbn [obind].
  destruct (IH g1 _ R1 H2) as (g' & E & R'). exists g'. split; [exact E|]. apply (srep_ext _ _ _ R'). intros q. symmetry. apply last_written_app.
Qed.
End Rep.
