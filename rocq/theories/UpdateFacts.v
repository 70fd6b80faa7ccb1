(** Facts on line pointers: they address the same cells as coordinates do. *)
From Coq Require Import Permutation.
From Verif Require Import Base ListFacts RegionSpec RegionModel RegionRep RegionIterModel RegionStreaks RegionOpsModel HaloSpec
  CoordModel CoordSpec CoordFacts TopologyFacts PatchModel ConfigFacts GridModel GridSpec GridFacts DisplacedFacts SellFacts
  StencilModel StencilSpec StencilFacts StencilProps UpdateModel UpdateSpec.

Lemma omap_spec {A B} (f : A -> option B) l : forall l', Forall2 (fun a b => f a = Some b) l l' -> omap f l = Some l'.
Proof. induction l as [|a l IH]; intros l' H; inversion H; subst; [reflexivity|]. cbn. rewrite H2. cbn. now rewrite (IH _ H4). Qed.

Lemma omap_ext {A B} (f g : A -> option B) l : (forall a, In a l -> f a = g a) -> omap f l = omap g l.
Proof. induction l as [|a l IH]; intros H; [reflexivity|]. cbn. rewrite (H a) by now left. destruct (g a); cbn; [|reflexivity]. rewrite IH; [reflexivity|]. intros; apply H; now right. Qed.

(** ** Rows of a grid are contiguous *)

Lemma oob_snoc tp : forall p dp w x n, length tp = length dp -> length p = length dp ->
  out_of_bounds (tp ++ [w]) (p ++ [x]) (dp ++ [n]) = out_of_bounds tp p dp || (negb w && ((x <? 0) || (n <=? x))).
Proof.
  induction tp as [|u tp IH]; intros [|y p] [|m dp] w x n H1 H2; try discriminate.
  - cbn. now rewrite orb_false_r.
  - cbn [app out_of_bounds]. rewrite IH by (cbn in *; lia). now rewrite orb_assoc.
Qed.

Lemma oob_bigger t : forall c dim topo, Forall2 Z.le dim topo -> out_of_bounds t c topo = true -> out_of_bounds t c dim = true.
Proof.
  induction t as [|w t IH]; intros [|x c] dim topo H E; destruct H as [|n m dim topo Hle H]; try discriminate.
  cbn [out_of_bounds] in *. apply orb_true_iff in E. apply orb_true_iff. destruct E as [E|E]; [left; destruct w; cbn in *; lia|right; eauto].
Qed.

Lemma wrap_in x n : 0 <= x < n -> wrap x n = x.
Proof. intros H. unfold wrap. destruct (Z.ltb_spec x 0); [lia|]. destruct (Z.leb_spec n x); [lia|]. reflexivity. Qed.

Lemma oob_normalized t : forall c dim topo, Forall2 Z.le dim topo -> out_of_bounds t c topo = false ->
  out_of_bounds t (normalize_edges c topo) dim = out_of_bounds t c dim.
Proof.
  induction t as [|w t IH]; intros c dim topo H E.
  - reflexivity.
  - destruct c as [|x c]; [reflexivity|]. destruct H as [|n m dim topo Hle H]; [reflexivity|]. cbn [out_of_bounds normalize_edges] in *.
    apply orb_false_iff in E. destruct E as [E1 E2]. rewrite (IH c dim topo H E2). f_equal. destruct w; [reflexivity|]. cbn [negb andb] in *.
    assert (Hx : 0 <= x < m) by lia. now rewrite (wrap_in x m Hx).
Qed.

Lemma normalize_snoc tp : forall pre x n, length pre = length tp ->
  normalize_edges (pre ++ [x]) (tp ++ [n]) = normalize_edges pre tp ++ [wrap x n].
Proof. induction tp as [|m tp IH]; intros [|y pre] x n H; try discriminate; [reflexivity|]. cbn. rewrite IH by (cbn in H; lia). reflexivity. Qed.

Lemma normalize_len tp : forall pre, length pre = length tp -> length (normalize_edges pre tp) = length tp.
Proof. induction tp as [|m tp IH]; intros [|y pre] H; try discriminate; [reflexivity|]. cbn. f_equal. apply IH. cbn in H. lia. Qed.

Section Row.
Context {C : Type} (t : topology) (correct : bool) (b : box) (topo : coord).
Context (Hs : setup_ok t correct b topo).
Context (d : dgrid C) (Ho : d_org d = b_origin b) (Ht : d_topo d = topo) (Hd : g_dim (d_grid d) = b_dim b).

(** All cells of a row are the edge cell, or they are stored side by side. *)
Lemma row_loc pre : length pre = (length t - 1)%nat ->
  let oob := out_of_bounds (removelast t) (zsub pre (removelast (b_origin b))) (removelast (b_dim b)) in
  let ox := last (b_origin b) 0 in let nx := last (b_dim b) 0 in
  (oob = true /\ forall x, ox <= x < ox + nx -> dg_loc t correct d (pre ++ [x]) = PEdge) \/
  (oob = false /\ exists base, forall x, ox <= x < ox + nx -> dg_loc t correct d (pre ++ [x]) = PCell (base + x)).
Proof using Hs Ho Ht Hd.
  intros Hpre. destruct Hs as (Hne & Hlo & Hln & Hp & Hle).
  assert (E : exists tp w, t = tp ++ [w]) by (exists (removelast t), (last t false); now apply app_removelast_last). destruct E as (tp & w & ->).
  rewrite app_length in *. cbn [length] in *.
  destruct (snoc_parts (b_origin b) (length tp) 0 ltac:(lia)) as [Eo Lo]. destruct (snoc_parts (b_dim b) (length tp) 0 ltac:(lia)) as [En Ln].
  set (op := removelast (b_origin b)) in *. set (ox := last (b_origin b) 0) in *. set (dp := removelast (b_dim b)) in *. set (nx := last (b_dim b) 0) in *.
  rewrite removelast_last. cbn zeta. set (oob := out_of_bounds tp (zsub pre op) dp).
  assert (Hlp : length pre = length op) by lia. assert (Hlz : length (zsub pre op) = length dp) by (rewrite zsub_length; lia).
  unfold dg_loc, grid_loc, dg_coord. rewrite Ho, Ht, Hd, Eo, En.
  destruct (bool_cases correct) as [Ec|Ec]; rewrite Ec in *.
  - specialize (Hle eq_refl). pose proof (forall2_length _ _ _ Hle) as Hlt. destruct (snoc_parts topo (length tp) 0 ltac:(lia)) as [Et Lt].
    set (tpp := removelast topo) in *. set (tx := last topo 0) in *. rewrite En, Et in Hle. apply Forall2_snoc in Hle; [|lia]. destruct Hle as [Hle Hlx].
    rewrite Et. set (oob' := out_of_bounds tp (zsub pre op) tpp).
    assert (Hoob' : forall x, ox <= x < ox + nx -> out_of_bounds (tp ++ [w]) (zsub pre op ++ [x - ox]) (tpp ++ [tx]) = oob').
    { intros x Hx. rewrite oob_snoc by lia. destruct w; cbn [negb andb]; [now rewrite orb_false_r|]. rewrite (proj2 (Z.ltb_ge _ _)) by lia. rewrite (proj2 (Z.leb_gt _ _)) by lia. apply orb_false_r. }
    destruct (bool_cases oob') as [E'|E'].
    + left. split; [apply (oob_bigger _ _ _ tpp Hle E')|]. intros x Hx. rewrite zsub_snoc by lia. unfold normalize. rewrite (Hoob' x Hx), E'.
      rewrite (oob_diag2 (tp ++ [w]) (tpp ++ [tx]) (dp ++ [nx]) (zsub pre op ++ [x - ox])); [reflexivity| | | |].
      * rewrite !app_length. cbn. lia.
      * rewrite !app_length. cbn. lia.
      * rewrite !app_length. cbn. lia.
      * rewrite (Hoob' x Hx). exact E'.
    + assert (Hno : out_of_bounds tp (normalize_edges (zsub pre op) tpp) dp = oob) by (apply oob_normalized; auto).
      assert (Hx' : forall x, ox <= x < ox + nx -> normalize (tp ++ [w]) (zsub (pre ++ [x]) (op ++ [ox])) (tpp ++ [tx]) = normalize_edges (zsub pre op) tpp ++ [x - ox]).
      { intros x Hx. rewrite zsub_snoc by lia. unfold normalize. rewrite (Hoob' x Hx), E'. rewrite normalize_snoc by lia. rewrite wrap_in by lia. reflexivity. }
      assert (Hlz' : length (normalize_edges (zsub pre op) tpp) = length dp) by (rewrite normalize_len; lia).
      assert (Hoo : forall x, ox <= x < ox + nx -> out_of_bounds (tp ++ [w]) (normalize_edges (zsub pre op) tpp ++ [x - ox]) (dp ++ [nx]) = oob).
      { intros x Hx. rewrite oob_snoc, Hno by lia. destruct w; cbn [negb andb]; [now rewrite orb_false_r|]. rewrite (proj2 (Z.ltb_ge _ _)) by lia. rewrite (proj2 (Z.leb_gt _ _)) by lia. apply orb_false_r. }
      destruct (bool_cases oob) as [E|E]; [left|right]; (split; [exact E|]).
      * intros x Hx. rewrite (Hx' x Hx), (Hoo x Hx), E. reflexivity.
      * exists (to_index (normalize_edges (normalize_edges (zsub pre op) tpp) dp) dp * nx - ox). intros x Hx.
        rewrite (Hx' x Hx), (Hoo x Hx), E. f_equal. rewrite normalize_snoc, wrap_in, to_index_snoc; try lia. rewrite normalize_len; lia.
  - assert (Hoo : forall x, ox <= x < ox + nx -> out_of_bounds (tp ++ [w]) (zsub pre op ++ [x - ox]) (dp ++ [nx]) = oob).
    { intros x Hx. rewrite oob_snoc by lia. fold oob. destruct w; cbn [negb andb]; [now rewrite orb_false_r|]. rewrite (proj2 (Z.ltb_ge _ _)) by lia. rewrite (proj2 (Z.leb_gt _ _)) by lia. apply orb_false_r. }
    destruct (bool_cases oob) as [E|E]; [left|right]; (split; [exact E|]).
    + intros x Hx. rewrite zsub_snoc by lia. rewrite (Hoo x Hx), E. reflexivity.
    + exists (to_index (normalize_edges (zsub pre op) dp) dp * nx - ox). intros x Hx. rewrite zsub_snoc by lia. rewrite (Hoo x Hx), E. f_equal.
      rewrite normalize_snoc, wrap_in, to_index_snoc; try lia. rewrite normalize_len; lia.
Qed.
End Row.

(** ** Flags mark the rows beyond the edge *)

Lemma flag_oob st t b s f w e : st_dim st = length t -> (1 <= length t <= 3)%nat -> length (b_origin b) = length t -> length (b_dim b) = length t ->
  Z.abs (fc_y f) <= 1 -> Z.abs (fc_z f) <= 1 -> ((st_dim st <= 1)%nat -> fc_y f = 0) -> ((st_dim st <= 2)%nat -> fc_z f = 0) ->
  in_box b (s_origin s) ->
  out_of_bounds (removelast t) (zsub (zadd (s_pre s) (removelast (fc_coord (st_dim st) f))) (removelast (b_origin b))) (removelast (b_dim b)) =
  let fl := lp_flags st t s b w e in
  (top fl && (fc_y f =? -1)) || (bottom fl && (fc_y f =? 1)) || (north fl && (fc_z f =? 1)) || (south fl && (fc_z f =? -1)).
Proof.
  destruct b as [bo bd], f as [X Y Z0], s as [pre x e0]. unfold lp_flags, s_origin, in_box. cbn [b_origin b_dim fc_x fc_y fc_z s_pre s_x]. intros -> Hd Ho Hn HY HZ H1 H2 Hb.
  destruct t as [|w0 [|w1 [|w2 [|? ?]]]]; cbn [length] in *; try lia;
  destruct bo as [|o0 [|o1 [|o2 [|? ?]]]]; cbn [length] in *; try lia;
  destruct bd as [|n0 [|n1 [|n2 [|? ?]]]]; cbn [length] in *; try lia.
  - destruct pre as [|p0 pre]; [|exfalso; cbn in Hb; destruct pre; cbn in Hb; tauto].
    cbn. reflexivity.
  - destruct pre as [|p0 [|p1 pre]]; [exfalso; cbn in Hb; tauto| |exfalso; cbn in Hb; destruct pre; cbn in Hb; tauto].
    cbn in Hb. rewrite (H2 ltac:(lia)). clear H1 H2. cbn -[Z.add Z.sub Z.leb Z.ltb Z.eqb].
    destruct Hb as (Hb1 & Hb2 & _). assert (HYc : Y = -1 \/ Y = 0 \/ Y = 1) by lia.
    destruct w0; cbn -[Z.add Z.sub Z.leb Z.ltb Z.eqb]; [reflexivity|]. destruct HYc as [->|[->| ->]]; lia.
  - destruct pre as [|p0 [|p1 [|p2 pre]]]; [exfalso; cbn in Hb; tauto|exfalso; cbn in Hb; tauto| |exfalso; cbn in Hb; destruct pre; cbn in Hb; tauto].
    cbn in Hb. clear H1 H2. cbn -[Z.add Z.sub Z.leb Z.ltb Z.eqb].
    destruct Hb as (Hb1 & Hb2 & Hb3 & _). assert (HYc : Y = -1 \/ Y = 0 \/ Y = 1) by lia. assert (HZc : Z0 = -1 \/ Z0 = 0 \/ Z0 = 1) by lia.
    destruct w0, w1; cbn -[Z.add Z.sub Z.leb Z.ltb Z.eqb]; try reflexivity; destruct HYc as [->|[->| ->]]; destruct HZc as [->|[->| ->]]; lia.
Qed.

(** ** Line pointers *)

Lemma omap_nth {A B} (f : A -> option B) l : forall l' n a, omap f l = Some l' -> nth_error l n = Some a -> nth_error l' n = f a.
Proof.
  induction l as [|a l IH]; intros l' n a0 E En; [destruct n; discriminate|]. cbn in E. destruct (f a) as [b|] eqn:Ef; [|discriminate]. cbn in E.
  destruct (omap f l) as [l1|] eqn:El; [|discriminate]. cbn in E. assert (l' = b :: l1) as -> by congruence. destruct n as [|n]; cbn in En |- *; [congruence|]. now apply (IH l1).
Qed.

Lemma omap_def {A B} (f : A -> option B) l : (forall a, In a l -> exists b, f a = Some b) -> exists l', omap f l = Some l' /\ length l' = length l.
Proof.
  induction l as [|a l IH]; intros H; [exists []; now split|]. destruct (H a (or_introl eq_refl)) as [b Eb]. destruct IH as (l' & E & L); [intros; apply H; now right|].
  exists (b :: l'). cbn. rewrite Eb. cbn. rewrite E. cbn. split; [reflexivity|]. now rewrite L.
Qed.

Lemma line_stencil_facts st : line_stencil st ->
  (forall f, in_stencil st f -> Z.abs (fc_x f) <= 1 /\ Z.abs (fc_y f) <= 1 /\ Z.abs (fc_z f) <= 1 /\ ((st_dim st <= 1)%nat -> fc_y f = 0) /\ ((st_dim st <= 2)%nat -> fc_z f = 0)) /\
  (forall f, in_stencil st f -> in_stencil st (FC 0 (fc_y f) (fc_z f))) /\
  (forall e, In e (st_table st) -> in_stencil st (snd e)) /\
  st_table st <> [] /\ st <> mkStencil VonNeumann 2 2 /\ 0 <= st_volume st.
Proof.
  destruct st as [sh d r]. unfold line_stencil. cbn [st_shape st_dim st_rad]. intros (-> & Hd & Hsh). split; [|split; [|split; [|split; [|split]]]].
  - intros f Hf. pose proof (in_stencil_bounds _ _ Hf) as Hb. cbn [st_rad] in Hb. destruct Hf as [_ Hz]. destruct f as [x y z]. cbn [fc_x fc_y fc_z st_dim fc_list] in *.
    destruct d as [|[|[|[|d]]]]; try lia; cbn in Hz; repeat split; intros; try lia; congruence.
  - intros [x y z] [Hs Hz]. split; cbn [fc_x fc_y fc_z st_shape st_rad st_dim fc_list] in *.
    + destruct sh; [| |congruence]; cbn in *; lia.
    + destruct d as [|[|[|[|d]]]]; try lia; cbn in *; congruence.
  - intros e He. assert (Hall : forallb (fun e => in_stencilb (mkStencil sh d 1) (snd e)) (st_table (mkStencil sh d 1)) = true).
    { destruct sh; [| |congruence]; (destruct d as [|[|[|[|d]]]]; try lia; reflexivity). }
    rewrite forallb_forall in Hall. apply in_stencilb_ok. now apply Hall.
  - destruct sh; [| |congruence]; (destruct d as [|[|[|[|d]]]]; try lia; discriminate).
  - congruence.
  - destruct sh; [| |congruence]; (destruct d as [|[|[|[|d]]]]; try lia; vm_compute; discriminate).
Qed.

Lemma fc_coord_snoc d f : (1 <= d <= 3)%nat -> fc_coord d f = removelast (fc_coord d f) ++ [fc_x f] /\ length (removelast (fc_coord d f)) = (d - 1)%nat.
Proof. intros Hd. destruct d as [|[|[|[|d]]]]; try lia; split; reflexivity. Qed.

Lemma fc_coord_zero d f : (1 <= d <= 3)%nat -> removelast (fc_coord d (FC 0 (fc_y f) (fc_z f))) = removelast (fc_coord d f).
Proof. intros Hd. destruct d as [|[|[|[|d]]]]; try lia; reflexivity. Qed.

Lemma deref_shift {C} (g : vgrid C) i k : deref g (PCell i) k = deref g (PCell (i + k)) 0.
Proof. cbn [deref]. f_equal. lia. Qed.

Lemma store_shift {C} (g : vgrid C) i k v : store g (PCell i) k v = store g (PCell (i + k)) 0 v.
Proof. cbn [store]. do 2 f_equal. lia. Qed.

Lemma van_loop_app {C} st upd (old : vgrid C) loc locN m : forall n spre tpre sx tx (g : vgrid C),
  van_loop st upd old loc locN (n + m) spre tpre sx tx g =
  obind (van_loop st upd old loc locN n spre tpre sx tx g) (van_loop st upd old loc locN m spre tpre (sx + Z.of_nat n) (tx + Z.of_nat n)).
Proof.
  induction n as [|n IH]; intros spre tpre sx tx g.
  - cbn [Nat.add van_loop obind]. f_equal; lia.
  - cbn [Nat.add van_loop]. destruct (hood_values st _) as [vs|]; [|reflexivity]. cbn [obind].
    destruct (deref g _ 0) as [v|]; [|reflexivity]. cbn [obind]. destruct (store g _ 0 _) as [g'|]; [|reflexivity]. cbn [obind]. rewrite IH.
    destruct (van_loop st upd old loc locN n spre tpre (sx + 1) (tx + 1) g'); [|reflexivity]. cbn [obind]. f_equal; lia.
Qed.

Section Line.
Context {C : Type} (st : stencil) (Hst : line_stencil st).
Context (t : topology) (correct : bool) (b : box) (topo : coord).
Context (Hs : setup_ok t correct b topo) (Hdim : st_dim st = length t).
Context (d : dgrid C) (Ho : d_org d = b_origin b) (Ht : d_topo d = topo) (Hd : g_dim (d_grid d) = b_dim b).
Context (s : streak) (Hne : s_x s < s_e s) (Hpre : length (s_pre s) = (length t - 1)%nat) (Hin : Forall (in_box b) (streak_coords s)).

Let loc := dg_loc t correct d.
Let line f := zadd (s_pre s) (removelast (fc_coord (st_dim st) f)) ++ [if fc_x f =? -1 then s_x s - 1 else if fc_x f =? 0 then s_x s else s_e s].

Lemma len3 : (1 <= length t <= 3)%nat.
Proof using Hst Hs Hdim Ho Ht Hd Hne Hpre Hin. destruct Hst as (_ & H & _). rewrite <- Hdim. exact H. Qed.

Lemma line_coord_line f : in_stencil st f -> line_coord (st_dim st) s f = Some (line f).
Proof using Hst Hs Hdim Ho Ht Hd Hne Hpre Hin.
  intros Hf. destruct (line_stencil_facts st Hst) as (Hb & _). destruct (Hb f Hf) as (Hx & _). unfold line_coord, calc_x, line.
  destruct (Z.eqb_spec (fc_x f) (-1)); [reflexivity|]. destruct (Z.eqb_spec (fc_x f) 0); [reflexivity|]. destruct (Z.eqb_spec (fc_x f) 1); [reflexivity|]. lia.
Qed.

Lemma lp_assembled : exists ps, lp_assemble st loc s = Some ps /\
  forall f, in_stencil st f -> exists i, st_offset st f = Some i /\ vec_get ps i = Some (loc (line f)).
Proof using Hst Hs Hdim Ho Ht Hd Hne Hpre Hin.
  destruct (line_stencil_facts st Hst) as (_ & _ & _ & H1 & H2 & H3). destruct (C45_tables st H1 H2) as (T1 & T2 & T3).
  unfold lp_assemble. destruct (omap_def (fun i => obind (st_coord st i) (fun f => option_map loc (line_coord (st_dim st) s f))) (zrange 0 (st_volume st))) as (ps & E & L).
  - intros i Hi. apply zrange_in in Hi. destruct (st_coord st i) as [f|] eqn:Ef; [|exfalso; now apply (proj1 (T1 i))]. destruct (T2 i f Ef) as [Hf _].
    cbn [obind]. rewrite (line_coord_line f Hf). eexists. reflexivity.
  - exists ps. split; [exact E|]. intros f Hf. destruct (T3 f Hf) as (i & E1 & E2). exists i. split; [exact E2|].
    assert (Hi : 0 <= i < st_volume st) by (apply T1; congruence). rewrite zrange_length in L.
    unfold vec_get. rewrite (proj2 (Z.ltb_ge _ _)) by lia.
    rewrite (omap_nth _ _ _ _ _ E (zrange_nth_error 0 (st_volume st) i ltac:(lia))). replace (0 + i) with i by lia.
    rewrite E1. cbn [obind]. rewrite (line_coord_line f Hf). reflexivity.
Qed.

Lemma streak_in x : s_x s <= x < s_e s -> in_box b (s_pre s ++ [x]).
Proof using Hst Hs Hdim Ho Ht Hd Hne Hpre Hin. intros Hx. rewrite Forall_forall in Hin. apply Hin. unfold streak_coords. apply in_map_iff. exists x. split; [reflexivity|]. now apply zrange_in. Qed.

Lemma streak_x x : s_x s <= x < s_e s -> last (b_origin b) 0 <= x < last (b_origin b) 0 + last (b_dim b) 0.
Proof using Hst Hs Hdim Ho Ht Hd Hne Hpre Hin.
  intros Hx. pose proof (streak_in x Hx) as H. destruct Hs as (Hn & Hlo & Hln & _). destruct t as [|w t']; [congruence|]. cbn [length] in *.
  destruct (snoc_parts (b_origin b) (length t') 0 ltac:(lia)) as [Eo Lo]. destruct (snoc_parts (b_dim b) (length t') 0 ltac:(lia)) as [En Ln].
  unfold in_box in H. rewrite Eo, En in H. clear Eo En. revert H. generalize (last (b_origin b) 0) (last (b_dim b) 0). intros o n.
  assert (Hgen : forall op dp pre, length op = length pre -> length dp = length pre -> inside (op ++ [o]) (dp ++ [n]) (pre ++ [x]) -> o <= x < o + n).
  { induction op as [|o1 op IH]; intros [|n1 dp] [|p1 pre] L1 L2 H; try discriminate; cbn in H; [lia|]. apply (IH dp pre); cbn in *; try lia. tauto. }
  apply Hgen; lia.
Qed.

(** What a neighborhood returns, is the cell at the coordinate next to the
    current one. *)
Lemma lp_access_eq ps x f : lp_assemble st loc s = Some ps -> 0 <= x < s_e s - s_x s -> in_stencil st f ->
  lp_access st (d_grid d) (lp_flags st t s b (x =? 0) (x =? s_e s - s_x s - 1)) ps x f =
  deref (d_grid d) (loc (zadd (s_pre s ++ [s_x s + x]) (fc_coord (st_dim st) f))) 0.
Proof using Hst Hs Hdim Ho Ht Hd Hne Hpre Hin.
  intros Eps Hx Hf. destruct lp_assembled as (ps' & Eps' & Hps). assert (ps' = ps) as -> by congruence.
  destruct (line_stencil_facts st Hst) as (Hb & Hz & _). destruct (Hb f Hf) as (B1 & B2 & B3 & B4 & B5). pose proof len3 as H3.
  destruct (fc_coord_snoc (st_dim st) f ltac:(lia)) as [Ef Lf].
  assert (Ec : forall y, zadd (s_pre s ++ [y]) (fc_coord (st_dim st) f) = zadd (s_pre s) (removelast (fc_coord (st_dim st) f)) ++ [y + fc_x f]).
  { intros y. rewrite Ef at 1. rewrite zadd_snoc by lia. reflexivity. }
  rewrite Ec. set (pre := zadd (s_pre s) (removelast (fc_coord (st_dim st) f))) in *.
  assert (Hlp : length pre = (length t - 1)%nat) by (unfold pre; rewrite zadd_length' by lia; lia).
  pose proof Hs as (_ & Hlo & Hln & _).
  pose proof (flag_oob st t b s f (x =? 0) (x =? s_e s - s_x s - 1) Hdim H3 Hlo Hln B2 B3 B4 B5 (streak_in (s_x s) ltac:(lia))) as Hfl. cbn zeta in Hfl. fold pre in Hfl.
  pose proof (row_loc t correct b topo Hs d Ho Ht Hd pre Hlp) as Hrow. cbn zeta in Hrow. rewrite Hfl in Hrow. fold loc in Hrow.
  unfold lp_access. cbv zeta. set (fl := lp_flags st t s b (x =? 0) (x =? s_e s - s_x s - 1)) in *.
  change (west fl) with (x =? 0). change (east fl) with (x =? s_e s - s_x s - 1).
  assert (Hat : forall x' k, in_stencil st (FC x' (fc_y f) (fc_z f)) -> x' = 0 \/ x' = fc_x f ->
    obind (st_offset st (FC x' (fc_y f) (fc_z f))) (fun i => obind (vec_get ps i) (fun p => deref (d_grid d) p k)) =
    deref (d_grid d) (loc (pre ++ [if x' =? -1 then s_x s - 1 else if x' =? 0 then s_x s else s_e s])) k).
  { intros x' k Hx' Hc. destruct (Hps _ Hx') as (i & E1 & E2). rewrite E1. cbn [obind]. rewrite E2. cbn [obind]. unfold line. cbn [fc_x].
    replace (removelast (fc_coord (st_dim st) (FC x' (fc_y f) (fc_z f)))) with (removelast (fc_coord (st_dim st) f)); [reflexivity|].
    destruct (st_dim st) as [|[|[|[|n]]]]; try lia; reflexivity. }
  assert (Hrest : s_x s <= s_x s + x + fc_x f < s_e s ->
    (let at_ (x y z k : Z) := obind (st_offset st (FC x y z)) (fun i => obind (vec_get ps i) (fun p => deref (d_grid d) p k)) in
     if top fl && (fc_y f =? -1) then at_ 0 (-1) (fc_z f) 0
     else if bottom fl && (fc_y f =? 1) then at_ 0 1 (fc_z f) 0
     else if north fl && (fc_z f =? 1) then at_ 0 (fc_y f) 1 0
     else if south fl && (fc_z f =? -1) then at_ 0 (fc_y f) (-1) 0
     else at_ 0 (fc_y f) (fc_z f) (fc_x f + x)) =
    deref (d_grid d) (loc (pre ++ [s_x s + x + fc_x f])) 0).
  { intros Hxx. cbv zeta. pose proof (Hat 0 0 (Hz f Hf) (or_introl eq_refl)) as Hat0. pose proof (Hat 0 (fc_x f + x) (Hz f Hf) (or_introl eq_refl)) as Hatx.
    change (0 =? -1) with false in Hat0, Hatx. change (0 =? 0) with true in Hat0, Hatx. cbv iota in Hat0, Hatx.
    pose proof (streak_x (s_x s) ltac:(lia)) as R0. pose proof (streak_x (s_x s + x + fc_x f) Hxx) as R1.
    destruct Hrow as [[Hf1 Hedge]|[Hf1 (base & Hcell)]].
    - assert (Hg : obind (st_offset st (FC 0 (fc_y f) (fc_z f))) (fun i => obind (vec_get ps i) (fun p => deref (d_grid d) p 0)) = deref (d_grid d) (loc (pre ++ [s_x s + x + fc_x f])) 0).
      { rewrite Hat0, (Hedge _ R0), (Hedge _ R1). reflexivity. }
      destruct (top fl && (fc_y f =? -1)) eqn:E1; [rewrite andb_true_iff, Z.eqb_eq in E1; destruct E1 as [_ E1]; rewrite E1 in Hg; exact Hg|].
      destruct (bottom fl && (fc_y f =? 1)) eqn:E2; [rewrite andb_true_iff, Z.eqb_eq in E2; destruct E2 as [_ E2]; rewrite E2 in Hg; exact Hg|].
      destruct (north fl && (fc_z f =? 1)) eqn:E3; [rewrite andb_true_iff, Z.eqb_eq in E3; destruct E3 as [_ E3]; rewrite E3 in Hg; exact Hg|].
      destruct (south fl && (fc_z f =? -1)) eqn:E4; [rewrite andb_true_iff, Z.eqb_eq in E4; destruct E4 as [_ E4]; rewrite E4 in Hg; exact Hg|]. discriminate Hf1.
    - rewrite !orb_false_iff in Hf1. destruct Hf1 as [[[-> ->] ->] ->]. rewrite Hatx, (Hcell _ R0), (Hcell _ R1). cbn [deref]. f_equal. lia. }
  cbv zeta in Hrest. destruct ((x =? 0) && (fc_x f =? -1)) eqn:EW.
  - apply andb_true_iff in EW. rewrite !Z.eqb_eq in EW. destruct EW as [E0 Ex].
    specialize (Hat (-1) 0). replace (FC (-1) (fc_y f) (fc_z f)) with f in Hat |- * by (destruct f; cbn in *; congruence). rewrite Hat by auto. do 4 f_equal. rewrite Ex, E0. change (-1 =? -1) with true. cbv iota. lia.
  - destruct ((x =? s_e s - s_x s - 1) && (fc_x f =? 1)) eqn:EE.
    + apply andb_true_iff in EE. rewrite !Z.eqb_eq in EE. destruct EE as [E0 Ex].
      specialize (Hat 1 0). replace (FC 1 (fc_y f) (fc_z f)) with f in Hat |- * by (destruct f; cbn in *; congruence). rewrite Hat by auto. do 4 f_equal. rewrite Ex, E0. change (1 =? -1) with false. change (1 =? 0) with false. cbv iota. lia.
    + apply Hrest. apply andb_false_iff in EW, EE. rewrite !Z.eqb_neq in EW, EE. lia.
Qed.

Lemma hood_eq ps x : lp_assemble st loc s = Some ps -> 0 <= x < s_e s - s_x s ->
  hood_values st (lp_access st (d_grid d) (lp_flags st t s b (x =? 0) (x =? s_e s - s_x s - 1)) ps x) =
  hood_values st (fun f => deref (d_grid d) (loc (zadd (s_pre s ++ [s_x s + x]) (fc_coord (st_dim st) f))) 0).
Proof using Hst Hs Hdim Ho Ht Hd Hne Hpre Hin.
  intros Eps Hx. destruct (line_stencil_facts st Hst) as (_ & _ & Htab & _). apply omap_ext. intros e He. apply lp_access_eq; auto.
Qed.

Section Target.
Context (upd : list C -> C -> C) (locN : coord -> ptr) (tpre : coord) (tx base : Z).
Context (Htgt : forall k, 0 <= k < s_e s - s_x s -> locN (tpre ++ [tx + k]) = PCell (base + k)).

Lemma lp_loop_eq w e ps : lp_assemble st loc s = Some ps -> forall n x g, 0 <= x -> x + Z.of_nat n <= s_e s - s_x s ->
  (forall k, x <= k < x + Z.of_nat n -> w = (k =? 0) /\ e = (k =? s_e s - s_x s - 1)) ->
  lp_loop st upd (d_grid d) (lp_flags st t s b w e) ps (PCell base) n x g = van_loop st upd (d_grid d) loc locN n (s_pre s) tpre (s_x s + x) (tx + x) g.
Proof using Hst Hs Hdim Ho Ht Hd Hne Hpre Hin Htgt.
  intros Eps. induction n as [|n IH]; intros x g Hx Hn Hk; [reflexivity|]. cbn [lp_loop van_loop].
  destruct (Hk x ltac:(lia)) as [Ew Ee]. rewrite (Htgt x) by lia.
  replace (hood_values st (lp_access st (d_grid d) (lp_flags st t s b w e) ps x)) with
    (hood_values st (fun f => deref (d_grid d) (loc (zadd (s_pre s ++ [s_x s + x]) (fc_coord (st_dim st) f))) 0)) by (rewrite Ew, Ee; symmetry; apply hood_eq; auto; lia).
  destruct (hood_values st _) as [vs|]; [|reflexivity]. cbn [obind]. rewrite (deref_shift g base x).
  destruct (deref g _ 0) as [v|]; [|reflexivity]. cbn [obind]. rewrite (store_shift g base x). destruct (store g _ 0 _) as [g'|]; [|reflexivity]. cbn [obind].
  rewrite IH; [|lia|lia|intros k Hk'; apply Hk; lia]. f_equal; lia.
Qed.

Lemma lp_line_eq ps g : lp_assemble st loc s = Some ps ->
  lp_line st upd t (d_grid d) b s ps (PCell base) g = van_loop st upd (d_grid d) loc locN (Z.to_nat (s_e s - s_x s)) (s_pre s) tpre (s_x s) tx g.
Proof using Hst Hs Hdim Ho Ht Hd Hne Hpre Hin Htgt.
  intros Eps. unfold lp_line. destruct (Z.eqb_spec (s_e s) (s_x s + 1)) as [E|E].
  - rewrite (lp_loop_eq true true ps Eps) by lia. f_equal; lia.
  - set (n := Z.to_nat (s_e s - s_x s - 1 - 1)).
    replace (Z.to_nat (s_e s - s_x s)) with (1 + (n + 1))%nat by lia. rewrite van_loop_app.
    rewrite (lp_loop_eq true false ps Eps) by lia. replace (s_x s + 0) with (s_x s) by lia. replace (tx + 0) with tx by lia.
    destruct (van_loop st upd (d_grid d) loc locN 1 (s_pre s) tpre (s_x s) tx g) as [g1|]; [|reflexivity]. cbn [obind]. rewrite van_loop_app.
    rewrite (lp_loop_eq false false ps Eps) by lia. change (Z.of_nat 1) with 1.
    destruct (van_loop st upd (d_grid d) loc locN n (s_pre s) tpre (s_x s + 1) (tx + 1) g1) as [g2|]; [|reflexivity]. cbn [obind].
    replace (Z.to_nat (s_e s - s_x s - Z.max 1 (s_e s - s_x s - 1))) with 1%nat by lia.
    rewrite (lp_loop_eq false true ps Eps) by lia. f_equal; lia.
Qed.
End Target.
End Line.

(** Rows inside of a box. *)
Lemma inside_snoc_split : forall op dp pre o n x, length op = length pre -> length dp = length pre ->
  (inside (op ++ [o]) (dp ++ [n]) (pre ++ [x]) <-> inside op dp pre /\ o <= x < o + n).
Proof.
  induction op as [|o1 op IH]; intros [|n1 dp] [|p1 pre] o n x L1 L2; try discriminate; cbn [app inside]; [cbn; tauto|].
  rewrite IH by (cbn in *; lia). tauto.
Qed.

Lemma oob_inside tp : forall op dp pre, length tp = length op -> inside op dp pre -> out_of_bounds tp (zsub pre op) dp = false.
Proof.
  induction tp as [|w tp IH]; intros [|o op] [|n dp] [|p pre] Hl H; try discriminate; cbn [inside zsub out_of_bounds] in *; try tauto; try reflexivity.
  rewrite (IH op dp pre) by (cbn in Hl; try lia; tauto). destruct w; cbn; lia.
Qed.

(** Target rows. *)
Lemma row_target {C} t correct b topo (d : dgrid C) pre : setup_ok t correct b topo -> d_org d = b_origin b -> d_topo d = topo -> g_dim (d_grid d) = b_dim b ->
  length pre = (length t - 1)%nat -> forall x0, in_box b (pre ++ [x0]) ->
  exists base, forall x, in_box b (pre ++ [x]) -> dg_loc t correct d (pre ++ [x]) = PCell (base + x).
Proof.
  intros Hs Ho Ht Hd Hpre x0 H0. pose proof (row_loc t correct b topo Hs d Ho Ht Hd pre Hpre) as H. cbn zeta in H.
  destruct Hs as (Hne & Hlo & Hln & _). destruct t as [|w t']; [congruence|]. cbn [length] in *.
  destruct (snoc_parts (b_origin b) (length t') 0 ltac:(lia)) as [Eo Lo]. destruct (snoc_parts (b_dim b) (length t') 0 ltac:(lia)) as [En Ln].
  assert (Hin : forall x, in_box b (pre ++ [x]) -> inside (removelast (b_origin b)) (removelast (b_dim b)) pre /\ last (b_origin b) 0 <= x < last (b_origin b) 0 + last (b_dim b) 0).
  { intros x Hx. unfold in_box in Hx. rewrite Eo, En in Hx. apply inside_snoc_split in Hx; auto; lia. }
  destruct H as [[Ho' _]|[_ (base & H)]].
  - exfalso. rewrite (oob_inside _ _ _ _) in Ho'; [discriminate| |apply (Hin x0 H0)].
    destruct (snoc_parts (w :: t') (length t') false ltac:(reflexivity)) as [_ L]. lia.
  - exists base. intros x Hx. apply H. apply (Hin x Hx).
Qed.

(** ** The coordinates of a work order *)

Lemma cut_streak_spec gran : 1 <= gran -> forall fuel s, 0 <= s_x s < s_e s -> s_e s - s_x s <= Z.of_nat fuel ->
  exists ps, tranches fuel gran s = Some ps /\ flat_map streak_coords ps = streak_coords s /\
    Forall (fun p => s_pre p = s_pre s /\ s_x p < s_e p <= s_x p + gran) ps.
Proof.
  intros Hg. induction fuel as [|fuel IH]; intros s Hs Hf; [lia|]. cbn [tranches]. destruct (Z.gtb_spec (s_e s - s_x s) gran) as [Hlt|Hge].
  - destruct (Z.eqb_spec gran 0); [lia|]. rewrite Z.rem_mod_nonneg by lia. pose proof (Z.mod_pos_bound (s_x s) gran ltac:(lia)) as Hm.
    set (m := s_x s mod gran) in *. clearbody m. set (e := s_x s + gran - m).
    destruct (IH (mkStreak (s_pre s) e (s_e s))) as (ps & E & Hc & Hp); [cbn [s_x s_e]; lia|cbn [s_x s_e]; lia|].
    rewrite E. cbn [option_map]. eexists. split; [reflexivity|]. split.
    + cbn [flat_map]. rewrite Hc. unfold streak_coords. cbn [s_pre s_x s_e]. rewrite <- map_app, (zrange_app (s_x s) e (s_e s)) by lia. reflexivity.
    + constructor; [split; [reflexivity|cbn [s_x s_e]; subst e; lia]|exact Hp].
  - exists [s]. split; [reflexivity|]. split; [cbn; apply app_nil_r|]. constructor; [|constructor]. split; [reflexivity|lia].
Qed.

Lemma cut_streaks_spec gran : 1 <= gran -> forall ss, Forall (fun s => 0 <= s_x s < s_e s) ss ->
  exists ps, cut_streaks gran ss = Some ps /\ flat_map streak_coords ps = flat_map streak_coords ss /\
    Forall (fun p => (exists s, In s ss /\ s_pre p = s_pre s) /\ s_x p < s_e p <= s_x p + gran) ps.
Proof.
  intros Hg. induction 1 as [|s ss Hs _ IH]; [exists []; repeat split; constructor|]. destruct IH as (ps & E & Hc & Hp).
  destruct (cut_streak_spec gran Hg (Z.to_nat (s_e s - s_x s)) s Hs ltac:(lia)) as (qs & E' & Hc' & Hq).
  exists (qs ++ ps). cbn [cut_streaks]. unfold cut_streak. rewrite E'. cbn [obind]. rewrite E. split; [reflexivity|]. split.
  - rewrite flat_map_app, Hc, Hc'. reflexivity.
  - apply Forall_app. split.
    + eapply Forall_impl; [|exact Hq]. cbn. intros p [H1 H2]. split; [|exact H2]. exists s. split; [now left|exact H1].
    + eapply Forall_impl; [|exact Hp]. cbn. intros p [(s' & H1 & H2) H3]. split; [|exact H3]. exists s'. split; [now right|exact H2].
Qed.

Lemma perm_flat {A B} (f : A -> list B) l l' : Permutation l l' -> Permutation (flat_map f l) (flat_map f l').
Proof. intros H. now apply Permutation_flat_map. Qed.

Lemma work_order_spec n r ss' : rvalid n r -> work_order r ss' ->
  Forall (fun s => length (s_pre s) = n /\ s_x s < s_e s) ss' /\ NoDup (flat_map streak_coords ss') /\
  forall c, In c (flat_map streak_coords ss') <-> inr n r c.
Proof.
  intros Hr Hw. destruct (streaks_valid n r Hr) as (l & [_ Hok] & _ & El & _). destruct (region_coords_nodup n r Hr) as (cs & Ec & Hc & Hnd).
  unfold region_coords in Ec. rewrite El in Ec. cbn [option_map] in Ec. assert (cs = flat_map streak_coords l) as -> by congruence.
  inversion Hw as [ss ? E Hp|gran ss ps ? E Hg Hx Ecut Hp]; subst; rewrite El in E; assert (ss = l) as -> by congruence.
  - split; [now apply (Permutation_Forall Hp)|]. pose proof (perm_flat streak_coords _ _ Hp) as Hpf. split; [now apply (Permutation_NoDup Hpf)|].
    intros c. rewrite <- Hc. split; apply Permutation_in; [now apply Permutation_sym|exact Hpf].
  - assert (Hpos : Forall (fun s => 0 <= s_x s < s_e s) l).
    { rewrite Forall_forall in *. intros s Hs. specialize (Hok s Hs). specialize (Hx s Hs). cbn in *. lia. }
    destruct (cut_streaks_spec gran Hg l Hpos) as (ps0 & E0 & Hcov & Hf). assert (ps0 = ps) as -> by congruence.
    pose proof (perm_flat streak_coords _ _ Hp) as Hpf. rewrite Hcov in Hpf. split; [|split; [now apply (Permutation_NoDup Hpf)|]].
    + apply (Permutation_Forall Hp). rewrite Forall_forall in *. intros p Hin. destruct (Hf p Hin) as [(s & Hs & ->) H]. split; [apply (Hok s Hs)|lia].
    + intros c. rewrite <- Hc. split; apply Permutation_in; [now apply Permutation_sym|exact Hpf].
Qed.

(** ** The effect of a run *)

Definition modify {C} (f : place -> C) (ops : list (place * (C -> C))) : place -> C :=
  fold_left (fun f o => GridFacts.upd f (fst o) (snd o (f (fst o)))) ops f.

Lemma modify_other {C} ops : forall (f : place -> C) q, ~ In q (map fst ops) -> modify f ops q = f q.
Proof.
  induction ops as [|[p h] ops IH]; intros f q H; [reflexivity|]. cbn [map fst In] in H. cbn [modify fold_left fst snd]. fold (modify (GridFacts.upd f p (h (f p))) ops).
  rewrite IH by tauto. unfold GridFacts.upd. destruct (place_dec p q); [tauto|reflexivity].
Qed.

Lemma modify_at {C} ops : forall (f : place -> C) p h, NoDup (map fst ops) -> In (p, h) ops -> modify f ops p = h (f p).
Proof.
  induction ops as [|[p0 h0] ops IH]; intros f p h Hn Hi; [destruct Hi|]. cbn [map fst] in Hn. inversion Hn as [|? ? H1 H2]; subst.
  cbn [modify fold_left fst snd]. fold (modify (GridFacts.upd f p0 (h0 (f p0))) ops). destruct Hi as [Hi|Hi].
  - assert (p0 = p /\ h0 = h) as [-> ->] by (split; congruence). rewrite modify_other by exact H1. unfold GridFacts.upd. destruct (place_dec p p); [reflexivity|congruence].
  - rewrite (IH _ p h H2 Hi). unfold GridFacts.upd. destruct (place_dec p0 p) as [E|E]; [|reflexivity]. exfalso. apply H1. subst p0. apply in_map_iff. now exists (p, h).
Qed.

Lemma modify_app {C} a b : forall f : place -> C, modify f (a ++ b) = modify (modify f a) b.
Proof. intros f. unfold modify. apply fold_left_app. Qed.

Lemma deref_get {C} t (g : vgrid C) c : deref g (grid_loc t g c) 0 = grid_get t g c.
Proof. unfold grid_loc, grid_get. destruct (out_of_bounds t c (g_dim g)); [reflexivity|]. cbn [deref]. f_equal. lia. Qed.

Lemma deref_dg_get {C} t correct (d : dgrid C) c : deref (d_grid d) (dg_loc t correct d c) 0 = dg_get t correct d c.
Proof. apply deref_get. Qed.

Lemma store_set {C} t (g : vgrid C) c v : store g (grid_loc t g c) 0 v = grid_set t g c v.
Proof. unfold grid_loc, grid_set. destruct (out_of_bounds t c (g_dim g)); [reflexivity|]. cbn [store]. do 2 f_equal. lia. Qed.

Lemma move_parts n s off : length (s_pre s) = n -> length off = S n ->
  move_streak s off = mkStreak (zadd (s_pre s) (removelast off)) (s_x s + last off 0) (s_e s + last off 0) /\
  zadd (s_origin s) off = zadd (s_pre s) (removelast off) ++ [s_x s + last off 0].
Proof.
  intros Hp Ho. destruct (snoc_parts off n 0 Ho) as [Es Ls].
  assert (E : zadd (s_origin s) off = zadd (s_pre s) (removelast off) ++ [s_x s + last off 0]) by (unfold s_origin; rewrite Es at 1; now rewrite zadd_snoc by lia).
  split; [|exact E]. unfold move_streak. rewrite E, removelast_last, last_last. reflexivity.
Qed.

Section Run.
Context {C : Type} (st : stencil) (fn : list C -> C -> C) (t : topology).
Context (correct : bool) (b : box) (topo : coord) (Hs : setup_ok t correct b topo) (d : dgrid C) (f : place -> C) (Hd : drep b topo d f).
Context (cN : bool) (bN : box) (topoN : coord) (HsN : setup_ok t cN bN topoN) (dn : dgrid C) (fN : place -> C) (HdN : drep bN topoN dn fN).
Context (n : nat) (Hn : length t = S n) (soff toff : coord) (Lso : length soff = S n) (Lto : length toff = S n).

Let den := ddenotes t correct b topo.
Let denN := ddenotes t cN bN topoN.
Let vals c := map (fun c' => f (den c')) (neighbors st (zadd c soff)).
Let op c := (denN (zadd c toff), fn (vals c)).
Let ok c := Forall (reachable_coord t correct b topo) (neighbors st (zadd c soff)) /\ reachable_coord t cN bN topoN (zadd c toff).

Lemma hood_get c : Forall (reachable_coord t correct b topo) (neighbors st c) ->
  hood_values st (fun e => deref (d_grid d) (dg_loc t correct d (zadd c (fc_coord (st_dim st) e))) 0) = Some (map (fun c' => f (den c')) (neighbors st c)).
Proof using All.
  intros H. unfold hood_values. apply omap_spec. unfold neighbors in *. rewrite map_map. rewrite Forall_map in H. induction H as [|e l He _ IH]; constructor; [|exact IH].
  rewrite deref_dg_get. apply (drep_get t correct b topo Hs d f); assumption.
Qed.

Lemma one_cell c g f' : rep (b_dim bN) g f' -> ok c ->
  obind (hood_values st (fun e => deref (d_grid d) (dg_loc t correct d (zadd (zadd c soff) (fc_coord (st_dim st) e))) 0)) (fun vs =>
  obind (deref g (dg_loc t cN dn (zadd c toff)) 0) (fun v => store g (dg_loc t cN dn (zadd c toff)) 0 (fn vs v))) =
  grid_set t g (dg_coord t cN dn (zadd c toff)) (fn (vals c) (f' (denN (zadd c toff)))) /\
  exists g', grid_set t g (dg_coord t cN dn (zadd c toff)) (fn (vals c) (f' (denN (zadd c toff)))) = Some g' /\
    rep (b_dim bN) g' (GridFacts.upd f' (fst (op c)) (snd (op c) (f' (fst (op c))))).
Proof using All.
  intros Hr [H1 H2]. rewrite (hood_get _ H1). cbn [obind]. destruct (drep_coord t cN bN topoN HsN dn fN (zadd c toff) HdN H2) as [K1 K2].
  pose proof HdN as (_ & _ & HrN). pose proof Hr as (Hdim & _). pose proof HrN as (HdimN & _).
  unfold dg_loc. replace (grid_loc t (d_grid dn) (dg_coord t cN dn (zadd c toff))) with (grid_loc t g (dg_coord t cN dn (zadd c toff))) by (unfold grid_loc; now rewrite Hdim, HdimN).
  rewrite deref_get. rewrite (rep_get t (b_dim bN) (so_len t cN bN topoN HsN) (so_pos t cN bN topoN HsN) g f' _ Hr K1). cbn [obind]. rewrite store_set, K2. split; [reflexivity|].
  destruct (rep_set t (b_dim bN) (so_len t cN bN topoN HsN) (so_pos t cN bN topoN HsN) g f' _ (fn (vals c) (f' (denN (zadd c toff)))) Hr K1) as (g' & E & R).
  exists g'. split; [exact E|]. rewrite K2 in R. exact R.
Qed.

Lemma van_loop_spec spre : forall k x g f', length spre = n -> rep (b_dim bN) g f' ->
  (forall y, x <= y < x + Z.of_nat k -> ok (spre ++ [y])) ->
  exists g', van_loop st fn (d_grid d) (dg_loc t correct d) (dg_loc t cN dn) k (zadd spre (removelast soff)) (zadd spre (removelast toff)) (x + last soff 0) (x + last toff 0) g = Some g' /\
    rep (b_dim bN) g' (modify f' (map op (map (fun y => spre ++ [y]) (zrange x (x + Z.of_nat k))))).
Proof using All.
  induction k as [|k IH]; intros x g f' Hp Hr Hok.
  - exists g. split; [reflexivity|]. rewrite zrange_nil by lia. exact Hr.
  - destruct (one_cell (spre ++ [x]) g f' Hr (Hok x ltac:(lia))) as (E1 & g1 & E2 & R1).
    destruct (snoc_parts soff n 0 Lso) as [Es Ls]. destruct (snoc_parts toff n 0 Lto) as [Et Lt].
    assert (Zs : zadd (spre ++ [x]) soff = zadd spre (removelast soff) ++ [x + last soff 0]) by (rewrite Es at 1; now rewrite zadd_snoc by lia).
    assert (Zt : zadd (spre ++ [x]) toff = zadd spre (removelast toff) ++ [x + last toff 0]) by (rewrite Et at 1; now rewrite zadd_snoc by lia).
    rewrite E2 in E1. rewrite Zs, Zt in E1. cbn [van_loop].
    destruct (hood_values st _) as [vs|] in E1 |- *; [|discriminate E1]. cbn [obind] in E1 |- *. destruct (deref g _ 0) as [v|] in E1 |- *; [|discriminate E1]. cbn [obind] in E1 |- *.
    rewrite E1. cbn [obind]. destruct (IH (x + 1) g1 _ Hp R1) as (g' & E & R); [intros y Hy; apply Hok; lia|].
    exists g'. split; [rewrite <- E; f_equal; lia|]. rewrite (zrange_cons x) by lia. cbn [map].
    replace (x + 1 + Z.of_nat k) with (x + Z.of_nat (S k)) in R by lia. exact R.
Qed.

Lemma van_body_spec s g f' : length (s_pre s) = n -> s_x s <= s_e s -> rep (b_dim bN) g f' -> Forall ok (streak_coords s) ->
  exists g', van_body st fn (d_grid d) (dg_loc t correct d) (dg_loc t cN dn) soff toff s g = Some g' /\
    rep (b_dim bN) g' (modify f' (map op (streak_coords s))).
Proof using All.
  intros Hp Hx Hr Hok. unfold van_body. destruct (move_parts n s soff Hp Lso) as [-> _]. destruct (move_parts n s toff Hp Lto) as [_ ->]. cbn [s_x s_e s_pre].
  rewrite removelast_last, last_last. destruct (van_loop_spec (s_pre s) (Z.to_nat (s_e s - s_x s)) (s_x s) g f' Hp Hr) as (g' & E & R).
  - intros y Hy. rewrite Forall_forall in Hok. apply Hok. unfold streak_coords. apply in_map_iff. exists y. split; [reflexivity|]. apply zrange_in. lia.
  - exists g'. replace (s_e s + last soff 0 - (s_x s + last soff 0)) with (s_e s - s_x s) by lia. split; [exact E|].
    replace (s_x s + Z.of_nat (Z.to_nat (s_e s - s_x s))) with (s_e s) in R by lia. exact R.
Qed.

Lemma run_spec ss : forall g f', Forall (fun s => length (s_pre s) = n /\ s_x s < s_e s) ss -> rep (b_dim bN) g f' -> Forall ok (flat_map streak_coords ss) ->
  exists g', run_bodies (van_body st fn (d_grid d) (dg_loc t correct d) (dg_loc t cN dn) soff toff) ss g = Some g' /\
    rep (b_dim bN) g' (modify f' (map op (flat_map streak_coords ss))).
Proof using All.
  induction ss as [|s ss IH]; intros g f' Hf Hr Hok; [exists g; split; [reflexivity|exact Hr]|].
  pose proof (Forall_inv Hf) as [H1 H2]. pose proof (Forall_inv_tail Hf) as H3. cbn [flat_map] in Hok. apply Forall_app in Hok. destruct Hok as [K1 K2].
  destruct (van_body_spec s g f' H1 ltac:(lia) Hr K1) as (g1 & E1 & R1). destruct (IH g1 _ H3 R1 K2) as (g' & E & R).
  exists g'. cbn [run_bodies]. rewrite E1. cbn [obind]. split; [exact E|]. cbn [flat_map]. rewrite map_app, modify_app. exact R.
Qed.
End Run.
