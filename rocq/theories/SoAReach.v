(** Updates of SoAGrid, and all the states which can be reached. *)
From Verif Require Import Base ListFacts RegionSpec RegionModel RegionRep RegionIterModel RegionStreaks RegionOpsModel HaloSpec
  CoordModel CoordSpec CoordFacts TopologyFacts PatchModel ConfigFacts GridModel GridSpec GridFacts DisplacedFacts GridReach SellFacts
  StencilModel StencilSpec StencilProps UpdateModel UpdateSpec UpdateFacts SoAModel SoASpec SoAFacts SoARep SoATransfer SoAUpdate.

(** ** Whole regions *)

Lemma off_assoc : forall a s o l, length a = length s -> length o = length s -> length l = length s ->
  zadd a (zadd (zsub s o) l) = zadd (zsub (zadd a s) o) l.
Proof.
  induction a as [|x a IH]; intros [|y s] [|z o] [|u l] H1 H2 H3; try discriminate; [reflexivity|]. cbn -[Z.add Z.sub]. f_equal; [lia|]. apply IH; cbn in *; lia.
Qed.

Lemma rel_assoc : forall a s o, length a = length s -> length o = length s -> zsub (zadd a s) o = zadd a (zsub s o).
Proof.
  induction a as [|x a IH]; intros [|y s] [|z o] H1 H2; try discriminate; [reflexivity|]. cbn -[Z.add Z.sub]. f_equal; [lia|]. apply IH; cbn in *; lia.
Qed.

Lemma move_assoc : forall a s o, length a = length s -> length o = length s -> zsub (zadd a s) o = zadd (zsub a o) s.
Proof.
  induction a as [|x a IH]; intros [|y s] [|z o] H1 H2; try discriminate; [reflexivity|]. cbn -[Z.add Z.sub]. f_equal; [lia|]. apply IH; cbn in *; lia.
Qed.

Lemma padded_inj R : forall t a b, length a = length t -> length b = length t -> padded t R a = padded t R b -> a = b.
Proof.
  induction t as [|w t IH]; intros [|x a] [|y b] Ha Hb E; try discriminate; [reflexivity|]. cbn [padded] in E.
  assert (E1 : (if w then x else x + 2 * R) = (if w then y else y + 2 * R)) by congruence. assert (E2 : padded t R a = padded t R b) by congruence.
  f_equal; [destruct w; lia|]. apply IH; auto.
Qed.

Lemma soa_dims_inj t R a b : length a = length t -> length b = length t -> soa_dims t R a = soa_dims t R b -> a = b.
Proof. intros Ha Hb E. unfold soa_dims in E. apply app_inv_head in E. now apply (padded_inj R t). Qed.

Section Whole.
Context {C : Type} (t : topology) (st : stencil) (sizes : coord -> option coord).
Context (acc : list fixed) (updc : list C -> C -> C).
Context (Hl3 : (length t <= 3)%nat) (Hne : t <> []) (Hsz : sizes_ok sizes).
Context (Hdim : st_dim st = length t) (Hacc : Forall (in_stencil st) acc) (Hrad : In true t -> (st_rad st <= 1)%nat).
Let R := Z.of_nat (st_rad st).
Context (b : box) (topo : coord) (g : sgrid C) (f : place -> C).
Context (Hld : length (b_dim b) = length t) (Hlo : length (b_origin b) = length t) (Hp : allpos (b_dim b)).
Context (Rg : srep t R sizes b topo g f).
Context (bN : box) (HloN : length (b_origin bN) = length t) (HdN : b_dim bN = b_dim b).
Context (soff toff : coord) (Lso : length soff = length t) (Lto : length toff = length t).
Context (Hspace : topo = map (fun _ => 0) t \/
   (Forall2 Z.le (b_dim b) topo /\
    (t = torus (length t) \/ (t = cube (length t) /\ zsub soff (b_origin b) = zsub toff (b_origin bN))))).
Let low := skipn (3 - length t) (edge_radii t R).
Let offO := zadd (zsub soff (b_origin b)) low.
Let offN := zadd (zsub toff (b_origin bN)) low.

Definition cell_op (c : coord) : coord * (C -> C) := (rel bN toff c, updc (vals t acc b f (rel b soff c))).
Let to_mem (w : coord * (C -> C)) : place * (C -> C) := (Some (emb t R (fst w)), snd w).

Lemma low_len : length low = length t.
Proof using Hl3 Hne. clear - Hl3 Hne. unfold low, edge_radii, pad. rewrite skipn_length, app_length, repeat_length, map_length. lia. Qed.

Lemma streak_spec ez ey ex s m F : sizes (soa_dims t R (b_dim b)) = Some [ez; ey; ex] -> m3 [ez; ey; ex] m F ->
  length t = S (length (s_pre s)) -> s_x s < s_e s ->
  Forall (fun c => in_box b (zadd c soff) /\ in_box bN (zadd c toff)) (streak_coords s) ->
  exists m', soa_body t acc updc false [ez; ey; ex] (sg_mem g) offO offN (b_dim b) (b_dim bN) topo s m = Some m' /\
    m3 [ez; ey; ex] m' (modify F (map to_mem (map cell_op (streak_coords s)))).
Proof using Hl3 Hne Hsz Hdim Hacc Hrad Hld Hlo Hp Rg HloN HdN Lso Lto Hspace.
  intros Hs Rm Hpre Hlen Hin.
  destruct (streak_off t R sizes Hl3 Hne (HR st) Hsz b Hld Hlo Hp soff s Lso Hpre Hlen) as (pre & o & L1 & E1 & G1); [eapply Forall_impl; [|exact Hin]; cbn; tauto|].
  assert (HldN : length (b_dim bN) = length t) by (rewrite HdN; exact Hld). assert (HpN : allpos (b_dim bN)) by (rewrite HdN; exact Hp).
  assert (HinN : Forall (fun c => in_box bN (zadd c toff)) (streak_coords s)) by (eapply Forall_impl; [|exact Hin]; cbn; tauto).
  destruct (streak_off t R sizes Hl3 Hne (HR st) Hsz bN HldN HloN HpN toff s Lto Hpre Hlen HinN) as (preN & oN & L2 & E2 & G2). rewrite HdN in *.
  assert (Lor : length (s_origin s) = length t) by (unfold s_origin; rewrite app_length; cbn; clear - Hpre; lia).
  destruct (body_spec t st sizes acc updc Hl3 Hne Hsz Hdim Hacc Hrad b topo g f Hld Hlo Hp Rg ez ey ex Hs pre preN (o - oN) (s_x s - o) s offO offN m F L1 L2 Rm) as (m' & E & R'); auto.
  - unfold offO. rewrite off_assoc; [|clear - Lor Lso; lia|clear - Lso Hlo; lia|rewrite low_len; clear - Lso; lia]. fold low. f_equal. unfold s_origin. apply (E1 (s_x s)).
  - unfold offN. rewrite off_assoc; [|clear - Lor Lto; lia|clear - Lto HloN; lia|rewrite low_len; clear - Lto; lia]. fold low. f_equal. unfold s_origin.
    replace (s_x s - o + (o - oN)) with (s_x s - oN) by (clear; lia). apply (E2 (s_x s)).
  - intros k Hk. split; [apply G1; clear - Hk; lia|]. apply G2. clear - Hk. lia.
  - unfold in_space. destruct Hspace as [H|[H1 [H2|[H2 H3]]]]; [now left|right; split; auto|right; split; [exact H1|]]. right. split; [exact H2|].
    replace (s_x s - o + (o - oN)) with (s_x s - oN) by (clear; lia). rewrite <- (E1 (s_x s)), <- (E2 (s_x s)). unfold rel.
    assert (length (s_pre s ++ [s_x s]) = length t) by exact Lor. rewrite !rel_assoc by (clear - H Lso Lto Hlo HloN; lia). now rewrite H3.
  - exists m'. split; [exact E|]. eapply m3_ext; [exact R'|]. intros p. f_equal. unfold row_ops, streak_coords. fold R. rewrite !map_map.
    replace (s_x s - o + (s_e s - s_x s)) with (s_x s - o + Z.of_nat (Z.to_nat (s_e s - s_x s))) by (clear - Hlen; lia). rewrite <- map_shift.
    replace (s_x s + Z.of_nat (Z.to_nat (s_e s - s_x s))) with (s_e s) by (clear - Hlen; lia).
    apply map_ext. intros x. unfold to_mem, cell_op. cbn [fst snd]. rewrite E1, E2. replace (x - o + (o - oN)) with (x - oN) by (clear; lia). reflexivity.
Qed.

Lemma streaks_spec ez ey ex ss : sizes (soa_dims t R (b_dim b)) = Some [ez; ey; ex] -> forall m F, m3 [ez; ey; ex] m F ->
  Forall (fun s => length t = S (length (s_pre s)) /\ s_x s < s_e s) ss ->
  Forall (fun c => in_box b (zadd c soff) /\ in_box bN (zadd c toff)) (flat_map streak_coords ss) ->
  exists m', each (soa_body t acc updc false [ez; ey; ex] (sg_mem g) offO offN (b_dim b) (b_dim bN) topo) ss m = Some m' /\
    m3 [ez; ey; ex] m' (modify F (map to_mem (map cell_op (flat_map streak_coords ss)))).
Proof using Hl3 Hne Hsz Hdim Hacc Hrad Hld Hlo Hp Rg HloN HdN Lso Lto Hspace.
  intros Hs. induction ss as [|s ss IH]; intros m F Rm Hss Hin; [exists m; split; [reflexivity|exact Rm]|].
  apply Forall_cons_iff' in Hss. destruct Hss as [[S1 S2] Hss]. cbn [flat_map] in Hin. apply Forall_app in Hin. destruct Hin as [Hin1 Hin2].
  destruct (streak_spec ez ey ex s m F Hs Rm S1 S2 Hin1) as (m1 & E1 & R1). destruct (IH m1 _ R1 Hss Hin2) as (m' & E' & R'). exists m'. cbn [each flat_map]. rewrite E1. cbn [obind].
  split; [exact E'|]. rewrite !map_app, modify_app. exact R'.
Qed.

Lemma update_spec topoN gN fN ss : srep t R sizes bN topoN gN fN ->
  Forall (fun s => length t = S (length (s_pre s)) /\ s_x s < s_e s) ss ->
  Forall (fun c => in_box b (zadd c soff) /\ in_box bN (zadd c toff)) (flat_map streak_coords ss) ->
  exists g', sg_update t sizes acc updc false g gN soff toff ss = Some g' /\
    srep t R sizes bN topoN g' (modify fN (map (fun c => (Some (fst (cell_op c)), snd (cell_op c))) (flat_map streak_coords ss))).
Proof using Hl3 Hne Hsz Hdim Hacc Hrad Hld Hlo Hp Rg HloN HdN Lso Lto Hspace.
  intros RN Hss Hin. pose proof Rg as (G1 & G2 & G3 & G4 & _). pose proof RN as (N1 & N2 & N3 & N4 & _ & ez & ey & ex & F & N6 & N7 & N8).
  unfold sg_update. rewrite G4, N4, HdN. replace (CoordModel.coord_eqb _ _) with true by (symmetry; now apply coord_eqb_eq). rewrite HdN in N6. rewrite N6. cbn [obind].
  rewrite G1, G2, G3, N1, N3. fold low. fold offO offN. destruct (streaks_spec ez ey ex ss N6 _ _ N7 Hss Hin) as (m' & E & R'). rewrite E. cbn [option_map].
  eexists. split; [reflexivity|].
  assert (HldN : length (b_dim bN) = length t) by (rewrite HdN; exact Hld). assert (HpN : allpos (b_dim bN)) by (rewrite HdN; exact Hp).
  eapply (srep_with t R sizes bN topoN gN fN m' ez ey ex); [exact RN| | | |]; revgoals;
    [| |exact R'|rewrite HdN; exact N6].
  - apply modify_other. rewrite map_map. intros Hi. apply in_map_iff in Hi. destruct Hi as (c & E' & _). discriminate.
  - intros p Hpp. rewrite (carry_modify t R sizes Hl3 Hne (HR st) Hsz bN HldN HloN HpN (map cell_op (flat_map streak_coords ss)) F fN); [now rewrite map_map| |exact N8|exact Hpp].
    apply Forall_forall. intros w Hw. apply in_map_iff in Hw. destruct Hw as (c & <- & Hc). rewrite Forall_forall in Hin. destruct (Hin c Hc) as [_ K]. cbn [fst cell_op]. unfold rel.
    apply in_box_zsub in K; [|rewrite HloN; clear - HldN; lia]. apply K.
Qed.
End Whole.

(** ** Topologically correct grids *)

(** Coordinates next to a box: at most one step beyond it along the axes which
    wrap. *)
Fixpoint next_to (t : topology) (dim c : coord) : Prop :=
  match t, dim, c with
  | [], [], [] => True
  | w :: t', n :: dim', x :: c' => (w = true -> -1 <= x <= n) /\ next_to t' dim' c'
  | _, _, _ => False
  end.

Lemma next_to_length t : forall dim c, next_to t dim c -> length c = length dim.
Proof. induction t as [|w t IH]; intros [|n dim] [|x c] H; cbn in *; try contradiction; [reflexivity|]. f_equal. now apply IH. Qed.

Lemma denotes_none t : forall dim topo c, Forall2 Z.le dim topo -> length t = length dim -> length c = length dim -> denotes t topo c = None -> denotes t dim c = None.
Proof.
  induction t as [|w t IH]; intros [|n dim] topo [|x c] Hle Hl Hc E; try discriminate; [inversion Hle; subst; discriminate|].
  inversion Hle as [|? m ? topo' H1 H2]; subst. cbn [denotes] in *. destruct (denotes t topo' c) as [r|] eqn:Er.
  - destruct w; [discriminate|]. destruct (denotes t dim c) as [r'|]; [|reflexivity].
    destruct (Z.leb_spec 0 x), (Z.ltb_spec x m), (Z.ltb_spec x n); cbn [andb] in *; try discriminate; try reflexivity; lia.
  - now rewrite (IH dim topo' c H2 ltac:(cbn in *; lia) ltac:(cbn in *; lia) Er).
Qed.

Lemma denotes_topo t : forall dim topo c, Forall2 Z.le dim topo -> length t = length dim -> allpos dim -> next_to t dim c ->
  (forall c', denotes t topo c = Some c' -> in_grid dim c') -> denotes t topo c = denotes t dim c.
Proof.
  induction t as [|w t IH]; intros [|n dim] topo c Hle Hl Hp Hn Hi; try discriminate; [inversion Hle; subst; destruct c; [reflexivity|destruct Hn]|].
  destruct c as [|x c]; [destruct Hn|]. destruct Hn as [Hx Hn]. inversion Hle as [|? m ? topo' H1 H2]; subst. unfold allpos in Hp. apply Forall_cons_iff' in Hp. destruct Hp as [Hp0 Hp].
  pose proof (next_to_length t dim c Hn) as Hlc.
  cbn [denotes] in Hi |- *. destruct (denotes t topo' c) as [r|] eqn:Er.
  2:{ now rewrite (denotes_none t dim topo' c H2 ltac:(cbn in *; lia) Hlc Er). }
  assert (Htail : in_grid dim r -> denotes t dim c = Some r).
  { intros Hr. rewrite <- (IH dim topo' c H2); [exact Er|cbn in *; lia|exact Hp|exact Hn|]. intros c' E'. assert (c' = r) as -> by congruence. exact Hr. }
  destruct w.
  - specialize (Hi _ eq_refl). apply (proj1 (in_grid_cons _ _ _ _)) in Hi. destruct Hi as [Hi1 Hi2]. rewrite (Htail Hi2). f_equal. f_equal.
    specialize (Hx eq_refl). clear - Hx Hi1 H1 Hp0. assert (x = -1 \/ x = n \/ 0 <= x < n) as [->|[->|Hr]] by lia.
    + assert (E : (-1) mod m = m - 1) by (symmetry; apply (Z.mod_unique_pos (-1) m (-1)); lia). rewrite E in Hi1 |- *. assert (m = n) as -> by (clear E; lia). exact (eq_sym E).
    + destruct (Z.eq_dec n m) as [->|Hm]; [reflexivity|]. rewrite (Z.mod_small n m) in Hi1 by lia. lia.
    + rewrite !Z.mod_small; lia.
  - destruct (Z.leb_spec 0 x), (Z.ltb_spec x m); cbn [andb] in *.
    + specialize (Hi _ eq_refl). apply (proj1 (in_grid_cons _ _ _ _)) in Hi. destruct Hi as [Hi1 Hi2]. rewrite (Htail Hi2). replace (x <? n) with true by lia. reflexivity.
    + replace (x <? n) with false by lia. now destruct (denotes t dim c).
    + now destruct (denotes t dim c).
    + now destruct (denotes t dim c).
Qed.

Lemma next_cell st t dims c e : length t = length dims -> (length t <= 3)%nat -> t <> [] -> st_dim st = length t ->
  (In true t -> (st_rad st <= 1)%nat) -> in_grid dims c -> in_stencil st e -> next_to t dims (zadd c (fc_coord (length t) e)).
Proof.
  intros Hl H3 Hne Hd Hw Hc Hf. destruct (in_stencil_bounds st e Hf) as (B1 & B2 & B3).
  assert (HwR : forall w, In w t -> w = true -> Z.of_nat (st_rad st) <= 1) by (intros w Hi ->; specialize (Hw Hi); lia). clear Hw Hd Hf.
  pose proof (in_grid_length _ _ Hc) as Hlc. unfold in_grid in Hc. destruct e as [fx fy fz]. cbn [fc_x fc_y fc_z fc_list] in *.
  d123 t dims; destruct c as [|c0 [|c1 [|c2 [|]]]]; try discriminate; cbn in Hc; unfold fc_coord; cbn -[Z.add]; repeat match goal with |- (_ = true -> _) /\ _ => apply conj | |- True => exact I end;
    intros Ew; match type of Ew with ?w = true => assert (Z.of_nat (st_rad st) <= 1) by (apply (HwR w); [cbn; tauto|exact Ew]) end; lia.
Qed.

Lemma fc_coord_length d e : (d <= 3)%nat -> length (fc_coord d e) = d.
Proof. destruct e as [x y z]. intros H. unfold fc_coord. destruct d as [|[|[|[|]]]]; cbn; lia. Qed.

(** What is seen in a grid is the same as what is seen in its box. *)
Lemma seen_places t correct st acc b topo c : (length t <= 3)%nat -> setup_ok t correct b topo ->
  st_dim st = length t -> Forall (in_stencil st) acc -> (In true t -> (st_rad st <= 1)%nat) -> in_box b c ->
  (correct = true -> Forall (reachable_coord t true b topo) (seen t acc c)) ->
  map (denotes t (b_dim b)) (seen t acc (zsub c (b_origin b))) = map (ddenotes t correct b topo) (seen t acc c).
Proof.
  intros H3 (Hne & Ho & Hld & Hp & Hle) Hd Hacc Hrad Hc Hseen. unfold in_box in Hc. apply in_box_zsub in Hc; [|lia]. destruct Hc as [Hlc Hc].
  induction Hacc as [|e acc He Hacc IH]; [reflexivity|]. unfold seen in *. cbn [map] in *. f_equal.
  - unfold ddenotes. rewrite move_assoc by (rewrite fc_coord_length by exact H3; lia). destruct (bool_cases correct) as [Ec|Ec]; rewrite Ec in *; [|reflexivity].
    specialize (Hseen eq_refl). apply Forall_cons_iff' in Hseen. destruct Hseen as [(_ & _ & Hs) _]. rewrite move_assoc in Hs by (rewrite fc_coord_length by exact H3; lia).
    symmetry. apply denotes_topo; auto. now apply (next_cell st).
  - apply IH. intros Ec. specialize (Hseen Ec). now apply Forall_cons_iff' in Hseen.
Qed.

(** ** Reachable states *)

Section Reached.
Context {C M : Type} (t : topology) (correct : bool) (st : stencil) (sizes : coord -> option coord) (junk : Z -> C) (K : nat) (assemble : list M -> C).
Context (Hsz : sizes_ok sizes).
Let R := Z.of_nat (st_rad st).

Lemma same_dims b topo (g : sgrid C) f b' topo' (g' : sgrid C) f' : srep t R sizes b topo g f -> srep t R sizes b' topo' g' f' ->
  length (b_dim b) = length t -> length (b_dim b') = length t -> sg_act g = sg_act g' -> b_dim b' = b_dim b.
Proof using. intros (_ & _ & _ & E1 & _) (_ & _ & _ & E2 & _) L1 L2 E. symmetry. apply (soa_dims_inj t R); congruence. Qed.

Lemma reach_rep b topo g : soa_setup t correct R b topo -> sg_reach t correct st sizes junk K assemble b topo g -> exists f, srep t R sizes b topo g f.
Proof using Hsz.
  intros Hs Hr. revert Hs.
  induction Hr as [b topo dflt edge g E|b topo g o g' Hr IH Hok E|b topo b0 g g' Hr IH Hs0 E|b topo g n r off buf g' Hr IH Hn Hrv Hoff Hin E|
                   b topo b0 topo0 g0 g acc upd n r soff toff ss g' Hr0 IH0 Hs0 Hr IH Hn Lso Lto Hrv Hw Hok E];
    intros Hs; pose proof Hs as ((Hne & Ho & Hld & Hp & Hle) & H3 & HR0).
  - destruct (srep_make t R sizes H3 Hne HR0 Hsz b topo Hld Ho Hp junk dflt edge) as [(g1 & E1 & R1)|[_ E1]]; [|unfold R in E1; congruence].
    unfold R in E1. assert (g1 = g) as -> by congruence. eauto.
  - destruct (IH Hs) as (f & Rf). destruct (srep_op t R sizes H3 Hne HR0 Hsz b topo Hld Ho Hp correct Hle g f o Rf Hok) as (g1 & E1 & R1). assert (g1 = g') as -> by congruence. eauto.
  - destruct (IH Hs0) as (f & Rf). destruct Hs0 as ((_ & Ho0 & Hld0 & Hp0 & _) & _).
    destruct (srep_resize t R sizes H3 Hne HR0 Hsz junk b0 b topo g f Hld0 Hp0 Hld Ho Hp Rf) as [(g1 & f1 & E1 & R1 & _)|[_ E1]]; [|congruence]. assert (g1 = g') as -> by congruence. eauto.
  - destruct (IH Hs) as (f & Rf). destruct (region_coords_nodup n r Hrv) as (cs & Ec & _).
    pose proof (srep_load t R sizes H3 Hne HR0 Hsz b topo Hld Ho Hp K assemble g f n r off buf cs Rf Hn Hrv ltac:(lia) Hin Ec) as HL.
    destruct (length buf <? K * length cs)%nat; [congruence|]. destruct HL as (vs & g1 & _ & E1 & R1). assert (g1 = g') as -> by congruence. eauto.
  - destruct (IH Hs) as (f & Rf). destruct (IH0 Hs0) as (f0 & Rf0). destruct Hs0 as ((_ & Ho0 & Hld0 & Hp0 & _) & _). destruct Hok as (K1 & K2 & K3 & K4 & K5).
    destruct (work_order_spec n r ss Hrv Hw) as (W1 & _ & W2).
    assert (Ea : sg_act g0 = sg_act g) by (unfold sg_update in E; destruct (CoordModel.coord_eqb (sg_act g0) (sg_act g)) eqn:Ee; [now apply coord_eqb_eq|discriminate]).
    pose proof (same_dims _ _ _ _ _ _ _ _ Rf0 Rf Hld0 Hld Ea) as Hd.
    destruct (update_spec t st sizes acc upd H3 Hne Hsz K1 K2 K3 b0 topo0 g0 f0 Hld0 Ho0 Hp0 Rf0 b Ho Hd soff toff ltac:(lia) ltac:(lia) K4 topo g f ss Rf) as (g1 & E1 & R1).
    + eapply Forall_impl; [|exact W1]. cbn. intros s [S1 S2]. split; [lia|exact S2].
    + apply Forall_forall. intros c Hc. apply W2 in Hc. destruct (K5 c Hc) as (J1 & J2 & _). auto.
    + assert (g1 = g') as -> by congruence. eauto.
Qed.
End Reached.
