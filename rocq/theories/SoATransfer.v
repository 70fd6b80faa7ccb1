(** SoAGrid: resizing, saving and loading regions. *)
From Verif Require Import Base ListFacts RegionSpec RegionModel RegionRep RegionIterModel RegionStreaks RegionOpsModel HaloSpec
  CoordModel CoordSpec CoordFacts TopologyFacts PatchModel ConfigFacts GridModel GridSpec GridFacts DisplacedFacts GridReach SellFacts
  StencilModel StencilSpec UpdateModel UpdateSpec UpdateFacts SoAModel SoASpec SoAFacts SoARep.

Lemma off_emb t R off org o : length off = length t -> length org = length t -> length o = length t -> (length t <= 3)%nat ->
  zadd (zadd (edge_radii t R) (pad 0 (zsub off org))) (pad 0 o) = emb t R (zsub (zadd o off) org).
Proof.
  intros H1 H2 H3 H4. unfold emb, pad. destruct t as [|w0 [|w1 [|w2 [|]]]]; cbn [length] in *; try lia;
    destruct off as [|f0 [|f1 [|f2 [|]]]]; try discriminate; destruct org as [|g0 [|g1 [|g2 [|]]]]; try discriminate; destruct o as [|o0 [|o1 [|o2 [|]]]]; try discriminate.
  all: unfold edge_radii, pad; cbn -[Z.add Z.sub]; leq.
Qed.

Lemma omap_some {A B} (f : A -> option B) l : (forall a, In a l -> f a <> None) -> exists l', omap f l = Some l' /\ length l' = length l.
Proof.
  induction l as [|a l IH]; intros H; [exists []; split; reflexivity|]. destruct IH as (l' & E & Hl); [intros; apply H; now right|].
  pose proof (H a (or_introl eq_refl)) as Ha. cbn [omap]. destruct (f a) as [v|]; [|congruence]. cbn [obind]. rewrite E. cbn. eexists. split; [reflexivity|]. cbn. now rewrite Hl.
Qed.

Lemma omap_app {A B} (f : A -> option B) a : forall b, omap f (a ++ b) = obind (omap f a) (fun u => option_map (app u) (omap f b)).
Proof.
  induction a as [|x a IH]; intros b; cbn [app omap]; [cbn [obind]; destruct (omap f b); reflexivity|]. destruct (f x) as [v|]; cbn [obind]; [|reflexivity].
  rewrite IH. destruct (omap f a) as [u|]; cbn [obind option_map]; [|reflexivity]. destruct (omap f b); reflexivity.
Qed.

Lemma vec_get_app_l {C} (a b : list C) i : i < Z.of_nat (length a) -> vec_get (a ++ b) i = vec_get a i.
Proof. intros H. unfold vec_get. destruct (Z.ltb_spec i 0); [reflexivity|]. apply nth_error_app1. lia. Qed.

Lemma vec_get_app_r {C} (a b : list C) i : Z.of_nat (length a) <= i -> vec_get (a ++ b) i = vec_get b (i - Z.of_nat (length a)).
Proof.
  intros H. unfold vec_get. destruct (Z.ltb_spec i 0), (Z.ltb_spec (i - Z.of_nat (length a)) 0); try lia. rewrite nth_error_app2 by lia. f_equal. lia.
Qed.

Lemma combine_app {A B} (a : list A) : forall (u : list B) b v, length a = length u -> combine (a ++ b) (u ++ v) = combine a u ++ combine b v.
Proof. induction a as [|x a IH]; intros [|y u] b v H; try discriminate; [reflexivity|]. cbn. rewrite IH by (now injection H). reflexivity. Qed.

(** The members of a cell in a buffer *)
Lemma buffer_at {C M} (part : nat -> C -> M) cells K : forall j0 j n c, (j0 <= j < j0 + K)%nat -> vec_get cells n = Some c ->
  vec_get (flat_map (fun j => map (part j) cells) (seq j0 K)) (Z.of_nat (j - j0) * Z.of_nat (length cells) + n) = Some (part j c).
Proof.
  assert (Hb : forall n c, vec_get cells n = Some c -> 0 <= n < Z.of_nat (length cells)).
  { intros n c H. unfold vec_get in H. destruct (Z.ltb_spec n 0); [discriminate|]. assert (Hn : nth_error cells (Z.to_nat n) <> None) by congruence. apply nth_error_Some in Hn. lia. }
  induction K as [|K IH]; intros j0 j n c Hj Hc; [lia|]. pose proof (Hb n c Hc) as Hn. cbn [seq flat_map]. destruct (Nat.eq_dec j j0) as [->|Hne].
  - replace (Z.of_nat (j0 - j0) * Z.of_nat (length cells) + n) with n by lia. rewrite vec_get_app_l by (rewrite map_length; lia).
    unfold vec_get in Hc |- *. destruct (Z.ltb_spec n 0); [discriminate|]. now apply map_nth_error.
  - rewrite vec_get_app_r by (rewrite map_length; nia). rewrite map_length.
    replace (Z.of_nat (j - j0) * Z.of_nat (length cells) + n - Z.of_nat (length cells)) with (Z.of_nat (j - S j0) * Z.of_nat (length cells) + n) by nia.
    apply IH; [lia|exact Hc].
Qed.

Section Transfer.
Context {C : Type} (t : topology) (R : Z) (sizes : coord -> option coord).
Context (Hl3 : (length t <= 3)%nat) (Hne : t <> []) (HR : 0 <= R) (Hsz : sizes_ok sizes).

(** ** Resizing *)
Lemma srep_resize (junk : Z -> C) b0 b topo (g : sgrid C) (f : place -> C) : length (b_dim b0) = length t -> allpos (b_dim b0) -> length (b_dim b) = length t -> length (b_origin b) = length t -> allpos (b_dim b) ->
  srep t R sizes b0 topo g f ->
  (exists g' f', sg_resize sizes junk g b = Some g' /\ srep t R sizes b topo g' f' /\ f' None = f None /\
     (b_dim b = b_dim b0 -> forall c, in_grid (b_dim b) c -> f' (Some c) = f (Some c))) \/
  (sizes (soa_dims t R (b_dim b)) = None /\ sg_resize sizes junk g b = None).
Proof using Hl3 Hne HR Hsz.
  intros Hld0 Hp0 Hld Hlo Hp (H1 & H2 & H3 & H4 & H5 & ez & ey & ex & F & H6 & H7 & H8). unfold sg_resize, sg_resize0. rewrite H3, (act_dims t R (b_dim b) (eq_sym Hld) Hl3 Hne), H4.
  assert (Hcase : (exists m ez' ey' ex' F', mem_resize sizes junk (soa_dims t R (b_dim b0)) (sg_mem g) (soa_dims t R (b_dim b)) = Some m /\ sizes (soa_dims t R (b_dim b)) = Some [ez'; ey'; ex'] /\
      m3 [ez'; ey'; ex'] m F' /\ (b_dim b = b_dim b0 -> m = sg_mem g /\ forall p, in_grid (soa_dims t R (b_dim b0)) p -> F' (Some p) = F (Some p))) \/
    (sizes (soa_dims t R (b_dim b)) = None /\ mem_resize sizes junk (soa_dims t R (b_dim b0)) (sg_mem g) (soa_dims t R (b_dim b)) = None)).
  { unfold mem_resize. destruct (CoordModel.coord_eqb (soa_dims t R (b_dim b0)) (soa_dims t R (b_dim b))) eqn:Ec.
    - apply coord_eqb_eq in Ec. left. rewrite <- Ec. exists (sg_mem g), ez, ey, ex, F. auto.
    - destruct (sizes (soa_dims t R (b_dim b))) as [e|] eqn:Es; [|right; split; reflexivity]. left.
      destruct (sizes_3 t R sizes Hl3 Hne HR Hsz (b_dim b) e (eq_sym Hld) Hp Es) as (ez' & ey' & ex' & gz & gy & gx & -> & Eg & M1 & M2 & M3).
      destruct (m3_map junk [ez'; ey'; ex']) as (F' & RF); [repeat constructor; lia|]. exists (map junk (zrange 0 (prod [ez'; ey'; ex']))), ez', ey', ex', F'.
      split; [reflexivity|]. split; [reflexivity|]. split; [exact RF|]. intros E. rewrite E in Ec. exfalso.
      assert (Et : CoordModel.coord_eqb (soa_dims t R (b_dim b0)) (soa_dims t R (b_dim b0)) = true) by now apply coord_eqb_eq. congruence. }
  destruct Hcase as [(m & ez' & ey' & ex' & F' & Em & Es & RF & Hsame)|[Es Em]]; rewrite Em; cbn [option_map obind].
  - left. unfold sg_set_edge. cbn [sg_act sg_rad sg_mem sg_edge sg_box sg_topo]. rewrite Es. cbn [obind].
    set (f' := fun p => match p with Some c => F' (Some (emb t R c)) | None => sg_edge g end).
    destruct (srep_content t R sizes Hl3 Hne HR Hsz b topo Hld Hlo Hp false (mkSGrid b (sg_topo g) (sg_edge g) (sg_rad g) (soa_dims t R (b_dim b)) m) m (sg_edge g) (sg_edge g) f' ez' ey' ex' F') as (m' & E & R'); auto.
    + intros p c Hi Ep. apply pl_inv in Ep; auto. destruct Ep as [_ ->]. reflexivity.
    + cbn [sg_act sg_rad] in E. rewrite H3 in E. rewrite E. cbn [option_map]. eexists. exists f'. split; [reflexivity|]. split; [rewrite H3 in R'; exact R'|]. split; [exact H5|].
      intros Eb c Hc. rewrite Eb in Hc. destruct (Hsame Eb) as [_ HF]. cbn [f']. destruct (emb_in t R (b_dim b0) c (eq_sym Hld0) Hl3 Hne HR Hc) as [I1 I2]. now rewrite HF, H8, I2 by exact I1.
  - right. split; [exact Es|reflexivity].
Qed.

(** ** Regions *)
Context (b : box) (topo : coord).
Context (Hld : length (b_dim b) = length t) (Hlo : length (b_origin b) = length t) (Hp : allpos (b_dim b)).

Definition rel (off c : coord) : coord := zsub (zadd c off) (b_origin b).

(** One streak of a region *)
Lemma streak_off off s : length off = length t -> length t = S (length (s_pre s)) -> s_x s < s_e s -> Forall (fun c => in_box b (zadd c off)) (streak_coords s) ->
  exists pre o, length t = S (length pre) /\ (forall x, rel off (s_pre s ++ [x]) = pre ++ [x - o]) /\ (forall x, s_x s - o <= x < s_e s - o -> in_grid (b_dim b) (pre ++ [x])).
Proof using Hl3 Hne HR Hsz Hld Hlo Hp.
  intros Ho Hpre Hx Hb. assert (Hc : streak_coords (s_shift off 0 s) = map (fun c => zadd c off) (streak_coords s)) by (apply shift_coords; lia).
  destruct (streak_rel t R sizes Hl3 Hne HR Hsz b Hld Hlo Hp (s_shift off 0 s)) as (L & ob & o & Eo & Lob & Es & Hin).
  - cbn. lia.
  - rewrite Hc, Forall_map. exact Hb.
  - cbn [s_shift s_pre s_x s_e] in *. exists (zsub (zadd (s_pre s) off) ob), (o - last off 0).
    destruct (snoc_parts off (length (s_pre s)) 0) as [Eoff Loff]; [lia|].
    split; [rewrite zsub_length by lia; lia|]. split.
    + intros x. unfold rel. replace (zadd (s_pre s ++ [x]) off) with (zadd (s_pre s) off ++ [x + last off 0]).
      * rewrite Es. f_equal. f_equal. lia.
      * rewrite Eoff at 3. rewrite zadd_snoc by lia. f_equal. rewrite Eoff at 1. apply zadd_long. lia.
    + intros x Hx'. apply Hin. lia.
Qed.

Lemma sg_offset_emb (g : sgrid C) f off o : srep t R sizes b topo g f -> length off = length t -> length o = length t ->
  zadd (sg_offset g off) (pad 0 o) = emb t R (rel off o).
Proof using Hl3 Hlo. intros (H1 & _ & H3 & _) Ho Hlo'. unfold sg_offset. rewrite H1, H3. now apply off_emb. Qed.

Lemma srep_read (g : sgrid C) f off ss : srep t R sizes b topo g f -> length off = length t -> Forall (fun s => length t = S (length (s_pre s)) /\ s_x s < s_e s) ss ->
  Forall (fun c => in_box b (zadd c off)) (flat_map streak_coords ss) ->
  obind (sizes (sg_act g)) (fun ext => read_streaks ext (sg_mem g) (map (offset_streak (sg_offset g off)) ss)) = Some (map (fun c => f (Some (rel off c))) (flat_map streak_coords ss)).
Proof using Hl3 Hne HR Hsz Hld Hlo Hp.
  intros Rg Ho Hs. pose proof Rg as (_ & _ & _ & H4 & _ & ez & ey & ex & F & H6 & _). rewrite H4, H6. cbn [obind]. induction Hs as [|s ss [L1 L2] _ IH]; intros Hb; [reflexivity|].
  cbn [flat_map] in Hb. apply Forall_app in Hb. destruct Hb as [Hb1 Hb2]. cbn [map read_streaks flat_map]. unfold offset_streak at 1.
  destruct (streak_off off s Ho L1 L2 Hb1) as (pre & o & P1 & P2 & P3). rewrite (sg_offset_emb g f off _ Rg Ho) by (unfold s_origin; rewrite app_length; cbn; lia).
  unfold s_origin. rewrite P2. pose proof (get_row t R sizes Hl3 Hne HR Hsz b topo Hld Hlo Hp g f pre (s_x s - o) (s_e s - o) Rg P1 ltac:(lia) P3) as E. rewrite H4, H6 in E. cbn [obind] in E.
  replace (s_e s - o - (s_x s - o)) with (s_e s - s_x s) in E by lia. rewrite E. cbn [obind]. rewrite (IH Hb2). cbn [option_map]. f_equal. rewrite map_app. f_equal.
  unfold streak_coords. rewrite map_map. replace (s_e s) with (s_x s + Z.of_nat (Z.to_nat (s_e s - s_x s))) at 2 by lia.
  rewrite (map_ext (fun x => f (Some (rel off (s_pre s ++ [x])))) (fun x => f (Some (pre ++ [x - o])))) by (intros; now rewrite P2).
  rewrite (map_shift (fun x => f (Some (pre ++ [x])))). f_equal. f_equal. lia.
Qed.

Lemma sum_len off ss : Forall (fun s => length t = S (length (s_pre s)) /\ s_x s < s_e s) ss -> sum_lengths (map (offset_streak off) ss) = Z.of_nat (length (flat_map streak_coords ss)).
Proof using.
  clear. induction 1 as [|s ss [_ H] _ IH]; [reflexivity|]. cbn [map sum_lengths fold_right offset_streak snd flat_map]. fold (sum_lengths (map (offset_streak off) ss)). rewrite IH, app_length.
  unfold streak_coords at 2. rewrite map_length, zrange_length. lia.
Qed.

Lemma region_streaks n r : length t = S n -> rvalid n r -> exists ss cs, reg_streaks r = Some ss /\ region_coords r = Some cs /\ flat_map streak_coords ss = cs /\
  Forall (fun s => length t = S (length (s_pre s)) /\ s_x s < s_e s) ss /\ NoDup cs /\ forall c, In c cs <-> inr n r c.
Proof using.
  intros Hn Hr. destruct (streaks_valid n r Hr) as (l & [_ Hok] & _ & El & _). destruct (region_coords_nodup n r Hr) as (cs & Ec & Hc & Hnd).
  exists l, cs. split; [exact El|]. split; [exact Ec|]. unfold region_coords in Ec. rewrite El in Ec. cbn in Ec. split; [congruence|]. split; [|split; assumption].
  eapply Forall_impl; [|exact Hok]. cbn. intros s H. rewrite Hn. destruct H as [-> H]. split; [reflexivity|]. clear - H. lia.
Qed.

Context {M : Type} (K : nat) (assemble : list M -> C).

Lemma srep_load_streaks off buf count ss : forall n0 g f vs, srep t R sizes b topo g f -> length off = length t -> Forall (fun s => length t = S (length (s_pre s)) /\ s_x s < s_e s) ss ->
  Forall (fun c => in_box b (zadd c off)) (flat_map streak_coords ss) ->
  omap (unpack K assemble buf count) (zrange n0 (n0 + Z.of_nat (length (flat_map streak_coords ss)))) = Some vs ->
  exists m, obind (sizes (sg_act g)) (fun ext => mem_load K assemble ext buf count (map (offset_streak (sg_offset g off)) ss) n0 (sg_mem g)) = Some m /\
    srep t R sizes b topo (sg_with g m) (last_written f (combine (map (fun c => Some (rel off c)) (flat_map streak_coords ss)) vs)).
Proof using Hl3 Hne HR Hsz Hld Hlo Hp.
  induction ss as [|s ss IH]; intros n0 g f vs Rg Ho Hs Hb Hv; pose proof Rg as (_ & _ & _ & H4 & _ & ez & ey & ex & F & H6 & _); rewrite H4, H6; cbn [obind].
  { exists (sg_mem g). split; [reflexivity|]. destruct g. exact Rg. }
  inversion Hs as [|? ? [L1 L2] Hs']; subst. cbn [flat_map] in Hb, Hv |- *. apply Forall_app in Hb. destruct Hb as [Hb1 Hb2]. cbn [map mem_load]. unfold offset_streak at 1.
  destruct (streak_off off s Ho L1 L2 Hb1) as (pre & o & P1 & P2 & P3). rewrite (sg_offset_emb g f off _ Rg Ho) by (unfold s_origin; rewrite app_length; cbn; lia).
  unfold s_origin. rewrite P2. rewrite app_length in Hv.
  assert (Hls : Z.of_nat (length (streak_coords s)) = s_e s - s_x s) by (unfold streak_coords; rewrite map_length, zrange_length; lia).
  rewrite (zrange_app n0 (n0 + (s_e s - s_x s))) in Hv by lia. rewrite omap_app in Hv.
  destruct (omap (unpack K assemble buf count) (zrange n0 (n0 + (s_e s - s_x s)))) as [v1|] eqn:E1; [|discriminate]. cbn [obind] in Hv |- *.
  assert (Hlv : length v1 = length (streak_coords s)).
  { assert (forall (A B : Type) (f : A -> option B) l l', omap f l = Some l' -> length l' = length l) as Hlen.
    { clear. intros A B f l. induction l as [|a l IH]; intros l' E; cbn in E; [injection E as <-; reflexivity|]. destruct (f a); [|discriminate]. cbn in E. destruct (omap f l) as [u|]; [|discriminate].
      injection E as <-. cbn. now rewrite (IH u). }
    apply Hlen in E1. rewrite E1, zrange_length. lia. }
  destruct (omap (unpack K assemble buf count) (zrange (n0 + (s_e s - s_x s)) (n0 + Z.of_nat (length (streak_coords s) + length (flat_map streak_coords ss))))) as [v2|] eqn:E2; [|discriminate].
  cbn [option_map] in Hv. injection Hv as <-.
  destruct (put_row t R sizes Hl3 Hne HR Hsz b topo Hld Hlo Hp g f pre (s_x s - o) (s_e s - o) v1 Rg P1 ltac:(lia) P3) as (m1 & Em1 & R1); [lia|]. rewrite H4, H6 in Em1. cbn [obind] in Em1.
  replace (s_e s - o - (s_x s - o)) with (s_e s - s_x s) in Em1 by lia. rewrite Em1. cbn [obind].
  replace (n0 + Z.of_nat (length (streak_coords s) + length (flat_map streak_coords ss))) with (n0 + (s_e s - s_x s) + Z.of_nat (length (flat_map streak_coords ss))) in E2 by lia.
  destruct (IH (n0 + (s_e s - s_x s)) (sg_with g m1) _ v2 R1 Ho Hs' Hb2 E2) as (m & Em & R'). cbn [sg_with sg_act sg_mem] in Em. rewrite H4, H6 in Em. cbn [obind] in Em.
  exists m. split; [exact Em|]. apply (srep_ext t R sizes b topo _ _ _ R'). intros q. rewrite map_app, combine_app by (rewrite map_length; lia). rewrite last_written_app.
  apply last_written_ext. clear q. intros q. f_equal. f_equal. unfold streak_coords. rewrite map_map.
  replace (s_e s) with (s_x s + Z.of_nat (Z.to_nat (s_e s - s_x s))) at 2 by lia.
  rewrite (map_ext (fun x => Some (rel off (s_pre s ++ [x]))) (fun x => Some (pre ++ [x - o]))) by (intros; now rewrite P2).
  rewrite (map_shift (fun x => Some (pre ++ [x]))). f_equal. f_equal. lia.
Qed.

Lemma srep_load (g : sgrid C) f n r off buf cs : srep t R sizes b topo g f -> length t = S n -> rvalid n r -> length off = length t -> (forall c, inr n r c -> in_box b (zadd c off)) ->
  region_coords r = Some cs ->
  if (length buf <? K * length cs)%nat then sg_load sizes K assemble g r off buf = None
  else exists vs g', omap (unpack K assemble buf (Z.of_nat (length cs))) (zrange 0 (Z.of_nat (length cs))) = Some vs /\
    sg_load sizes K assemble g r off buf = Some g' /\ srep t R sizes b topo g' (last_written f (combine (map (fun c => Some (rel off c)) cs) vs)).
Proof using Hl3 Hne HR Hsz Hld Hlo Hp.
  intros Rg Hn Hr Ho Hin Ecs. destruct (region_streaks n r Hn Hr) as (ss & cs' & Es & Ec & Ef & Hs & _ & Hcs). assert (cs' = cs) as -> by congruence.
  assert (Hb : Forall (fun c => in_box b (zadd c off)) (flat_map streak_coords ss)) by (rewrite Ef; apply Forall_forall; intros c Hc; apply Hin; now apply Hcs).
  unfold sg_load. rewrite Es. cbn [obind]. rewrite (sum_len _ _ Hs), Ef.
  destruct (Nat.ltb_spec (length buf) (K * length cs)); destruct (Z.ltb_spec (Z.of_nat (length buf)) (Z.of_nat K * Z.of_nat (length cs))); try nia; [reflexivity|].
  destruct (omap_some (unpack K assemble buf (Z.of_nat (length cs))) (zrange 0 (Z.of_nat (length cs)))) as (vs & Ev & Hlv).
  { intros i Hi. apply zrange_in in Hi. unfold unpack. destruct (omap_some (fun j => vec_get buf (Z.of_nat j * Z.of_nat (length cs) + i)) (seq 0 K)) as (l & El & _); [|rewrite El; discriminate].
    intros j Hj. apply in_seq in Hj. unfold vec_get. destruct (Z.ltb_spec (Z.of_nat j * Z.of_nat (length cs) + i) 0); [nia|]. apply nth_error_Some. nia. }
  exists vs. destruct (srep_load_streaks off buf (Z.of_nat (length cs)) ss 0 g f vs Rg Ho Hs Hb) as (m & Em & R').
  { rewrite Ef. exact Ev. }
  destruct (sizes (sg_act g)) as [ext|]; [|discriminate]. cbn [obind] in Em |- *. rewrite Em. cbn [option_map]. eexists. split; [exact Ev|]. split; [reflexivity|]. now rewrite Ef in R'.
Qed.
Context (part : nat -> C -> M).

Lemma srep_save (g : sgrid C) f n r off : srep t R sizes b topo g f -> length t = S n -> rvalid n r -> length off = length t -> (forall c, inr n r c -> in_box b (zadd c off)) ->
  exists cs, region_coords r = Some cs /\ sg_save sizes K part g r off = Some (flat_map (fun j => map (part j) (map (fun c => f (Some (rel off c))) cs)) (seq 0 K)).
Proof using Hl3 Hne HR Hsz Hld Hlo Hp.
  intros Rg Hn Hr Ho Hin. destruct (region_streaks n r Hn Hr) as (ss & cs & Es & Ec & Ef & Hs & _ & Hcs). exists cs. split; [exact Ec|]. unfold sg_save. rewrite Es. cbn [obind].
  assert (Hb : Forall (fun c => in_box b (zadd c off)) (flat_map streak_coords ss)) by (rewrite Ef; apply Forall_forall; intros c Hc; apply Hin; now apply Hcs).
  pose proof (srep_read g f off ss Rg Ho Hs Hb) as E. destruct (sizes (sg_act g)) as [ext|]; [|discriminate]. cbn [obind] in E |- *. unfold mem_save. rewrite E, Ef. reflexivity.
Qed.

End Transfer.
