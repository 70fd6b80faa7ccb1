(** Facts on [expandWithTopology] and [expandWithAdjacency]. *)
From Verif Require Import Base ListFacts RegionSpec RegionModel RegionRep RegionIterModel RegionStreaks
  CoordModel CoordSpec RegionOpsModel RegionOps CoordFacts TopologyFacts RegionExpand.
From Coq Require Import Sorted.

Lemma wraps_length t : forall dim c c', wraps_to t dim c c' ->
  length dim = length t /\ length c = length t /\ length c' = length t.
Proof.
  induction t as [|w t IH]; intros [|n dim] [|x c] [|x' c'] H; cbn in H; try tauto; auto.
  destruct H as (_ & _ & H). apply IH in H. cbn. lia.
Qed.

Lemma wraps_snoc t : forall dim p p' w n x x', length p = length t -> length dim = length t -> length p' = length t ->
  (wraps_to (t ++ [w]) (dim ++ [n]) (p ++ [x]) (p' ++ [x']) <->
   wraps_to t dim p p' /\ 0 <= x' < n /\ (if w : bool then exists k, x = x' + k * n else x = x')).
Proof.
  induction t as [|v t IH]; intros [|m dim] [|y p] [|y' p'] w n x x' H1 H2 H3; try discriminate; cbn [app wraps_to].
  - tauto.
  - rewrite IH by (cbn in *; lia). tauto.
Qed.

Lemma wraps_dec t dim c : length t = length dim -> allpos dim -> one_period dim c ->
  (exists c', wraps_to t dim c c') \/ (forall c', ~ wraps_to t dim c c').
Proof.
  intros Hl Hp Hc. destruct (out_of_bounds t c dim) eqn:E.
  - right. now apply out_of_bounds_spec.
  - left. eexists. now apply normalize_edges_spec.
Qed.

Lemma one_period_length dim : forall c, one_period dim c -> length c = length dim.
Proof. induction dim as [|n dim IH]; intros [|x c] H; cbn in *; try tauto. f_equal. apply IH. tauto. Qed.

Lemma one_period_snoc dim : forall p n x, length p = length dim ->
  (one_period (dim ++ [n]) (p ++ [x]) <-> one_period dim p /\ - n <= x < 2 * n).
Proof.
  induction dim as [|m dim IH]; intros [|y p] n x H; try discriminate; cbn [app one_period]; [tauto|].
  rewrite IH by (cbn in H; lia). tauto.
Qed.

Section Wrap.
Variables (d : nat) (tp : topology) (tx : bool) (dp : coord) (width : Z).
Hypothesis (Htp : length tp = d) (Hdp : length dp = d) (Hpos : allpos dp) (Hw : 0 < width).

Local Notation t := (tp ++ [tx]).
Local Notation dim := (dp ++ [width]).

(** A streak within the row: its image under [normalize] is inserted. *)
Lemma normalize_streak_valid target s :
  rvalid d target -> one_period dp (s_pre s) -> (s_x s < s_e s -> 0 <= s_x s /\ s_e s <= width) ->
  one_period dim (s_origin s) \/ s_e s <= s_x s ->
  rvalid d (normalize_streak t s target dim) /\
  forall c, length c = S d ->
    (rin (normalize_streak t s target dim) c <->
     rin target c \/ exists c1, in_streak s c1 /\ wraps_to t dim c1 c).
Proof.
  intros Hv Hs Hx Ho. unfold normalize_streak.
  assert (Hsl : length (s_pre s) = d) by (rewrite (one_period_length dp); auto).
  assert (Hpos' : allpos dim) by (apply Forall_app; split; auto; constructor; auto).
  set (o := normalize t (s_origin s) dim).
  assert (Hol : length o = S d).
  { unfold o, normalize. assert (length (s_origin s) = S d) as E by (unfold s_origin; rewrite app_length; cbn; lia).
    destruct (out_of_bounds _ _ _); [unfold diagonal; rewrite repeat_length; auto|].
    assert (G : forall a b, length a = length b -> length (normalize_edges a b) = length a).
    { clear. induction a; intros [|? b] H; cbn in *; try discriminate; auto. }
    rewrite G; auto. rewrite E, app_length. cbn. lia. }
  pose proof (snoc_of o 0 d Hol) as Eo.
  assert (Hro : length (removelast o) = d) by (rewrite Eo, app_length in Hol; cbn in Hol; lia).
  destruct (Z.lt_ge_cases (s_x s) (s_e s)) as [Hne|Hem].
  2:{ (* empty *)
    assert (Hnone : forall c, ~ exists c1, in_streak s c1 /\ wraps_to t dim c1 c).
    { intros c (c1 & (x & _ & H) & _). lia. }
    destruct (coord_eqb o _).
    - split; auto. intros c Hc. specialize (Hnone c). tauto.
    - destruct (insert_valid d target (mkStreak (removelast o) (last o 0) (last o 0 + (s_e s - s_x s))) Hv) as [V H]; auto.
      split; auto. intros c Hc. rewrite H by auto. specialize (Hnone c).
      assert (~ in_streak (mkStreak (removelast o) (last o 0) (last o 0 + (s_e s - s_x s))) c).
      { intros (x & _ & Hxx). cbn in Hxx. lia. }
      tauto. }
  destruct Ho as [Ho|Ho]; [|lia]. destruct (Hx Hne) as [Hx0 Hx1].
  assert (Hlt : length t = length dim) by (rewrite !app_length; cbn; lia).
  destruct (normalize_spec t dim (s_origin s) Hlt Hpos' Ho) as [HN1 HN2]. fold o in HN1, HN2.
  assert (Hself : if tx then exists k, s_x s = s_x s + k * width else s_x s = s_x s) by (destruct tx; auto; exists 0; lia).
  destruct (wraps_dec tp dp (s_pre s) ltac:(lia) Hpos Hs) as [[p' Hp']|Hnone].
  - assert (Hlp' : length p' = d) by (apply wraps_length in Hp'; lia).
    assert (E : o = p' ++ [s_x s]).
    { apply HN1. unfold s_origin. apply wraps_snoc; try lia. repeat split; auto; lia. }
    assert (Hflag : coord_eqb o (diagonal (length o) (-1)) = false).
    { apply not_true_iff_false. rewrite coord_eqb_spec. intros Hd. rewrite E in Hd.
      assert (In (s_x s) (diagonal (length (p' ++ [s_x s])) (-1))) as Hi by (rewrite <- Hd; apply in_or_app; right; now left).
      unfold diagonal in Hi. apply repeat_spec in Hi. lia. }
    rewrite Hflag, E. rewrite removelast_last, last_last.
    replace (s_x s + (s_e s - s_x s)) with (s_e s) by lia.
    destruct (insert_valid d target (mkStreak p' (s_x s) (s_e s)) Hv) as [V H]; auto.
    split; auto. intros c Hc. rewrite H by auto.
    destruct (coord_split c d Hc) as (p & x & -> & Hp). rewrite in_streak_snoc. cbn [s_pre s_x s_e].
    split; (intros [Hr|Hr]; [auto|right]).
    + destruct Hr as [-> Hxx]. exists (s_pre s ++ [x]). split; [apply in_streak_snoc; auto|].
      apply wraps_snoc; try lia. repeat split; auto; try lia. destruct tx; auto. exists 0. lia.
    + destruct Hr as (c1 & (x1 & -> & Hx1') & Hwr). apply wraps_snoc in Hwr; try lia.
      destruct Hwr as (Hwp & Hxw & Hxx). split; [eapply wraps_to_unique; eauto|].
      destruct tx; [|lia]. destruct Hxx as [k Ek].
      assert (x1 = x) by (apply (wrap_unique width x1 x k); lia). lia.
  - assert (E : o = diagonal (length (s_origin s)) (-1)).
    { apply HN2. intros c' Hc'. pose proof (wraps_length _ _ _ _ Hc') as (_ & _ & Hlc).
      destruct (coord_split c' d) as (p' & x' & -> & Hp'); [rewrite Hlc, app_length; cbn; lia|].
      unfold s_origin in Hc'. apply wraps_snoc in Hc'; try lia. eapply Hnone. apply Hc'. }
    assert (coord_eqb o (diagonal (length o) (-1)) = true) as ->.
    { apply coord_eqb_spec. rewrite E at 1. f_equal. rewrite E. unfold diagonal. now rewrite repeat_length. }
    split; auto. intros c Hc. split; auto. intros [H|(c1 & (x1 & -> & Hx1') & Hwr)]; auto. exfalso.
    destruct (coord_split c d Hc) as (p & x & -> & Hp). apply wraps_snoc in Hwr; try lia. eapply Hnone. apply Hwr.
Qed.

(** The wrapped image of a streak of the expanded region. *)
Definition image (s : streak) (c : coord) : Prop := exists c1, in_streak s c1 /\ wraps_to t dim c1 c.

Lemma image_ext s1 s2 c : (forall c1, in_streak s1 c1 <-> in_streak s2 c1) -> (image s1 c <-> image s2 c).
Proof. intros H. unfold image. split; intros (c1 & H1 & H2); exists c1; split; auto; now apply H. Qed.

(** Shifting by the width does not change the image if x wraps. *)
Lemma image_shift p a b k c : tx = true -> length p = d -> length c = S d ->
  (image (mkStreak p (a + k * width) (b + k * width)) c <-> image (mkStreak p a b) c).
Proof.
  intros Htx Hp Hc. destruct (coord_split c d Hc) as (q & y & -> & Hq).
  assert (H : forall a b k, image (mkStreak p a b) (q ++ [y]) -> image (mkStreak p (a + k * width) (b + k * width)) (q ++ [y])).
  { clear a b k. intros a b k (c1 & (x & -> & Hx) & Hwr). cbn [s_pre s_x s_e] in *.
    exists (p ++ [x + k * width]). split; [exists (x + k * width); cbn; split; auto; lia|].
    apply wraps_snoc in Hwr; try lia. apply wraps_snoc; try lia. destruct Hwr as (H1 & H2 & H3).
    rewrite Htx in *. destruct H3 as [j Ej]. split; auto. split; auto. exists (j + k). lia. }
  split; [|apply H]. intros Hi. apply (H _ _ (- k)) in Hi.
  replace (a + k * width + - k * width) with a in Hi by lia.
  replace (b + k * width + - k * width) with b in Hi by lia. auto.
Qed.

Lemma image_split p a m b c : a <= m <= b ->
  (image (mkStreak p a b) c <-> image (mkStreak p a m) c \/ image (mkStreak p m b) c).
Proof.
  intros Hm. unfold image, in_streak. cbn [s_pre s_x s_e]. split.
  - intros (c1 & (x & E & Hx) & Hwr). destruct (Z.lt_ge_cases x m); [left|right]; exists c1; split; auto; exists x; split; auto; lia.
  - intros [(c1 & (x & E & Hx) & Hwr)|(c1 & (x & E & Hx) & Hwr)]; exists c1; split; auto; exists x; split; auto; lia.
Qed.

Lemma image_empty s c : s_e s <= s_x s -> ~ image s c.
Proof. intros H (c1 & (x & _ & Hx) & _). lia. Qed.

Lemma normalize_image target p a b : rvalid d target -> one_period dp p -> (a < b -> 0 <= a /\ b <= width) ->
  let r' := normalize_streak t (mkStreak p a b) target dim in
  rvalid d r' /\ forall c, length c = S d -> (rin r' c <-> rin target c \/ image (mkStreak p a b) c).
Proof.
  intros Hv Hp Hab. apply normalize_streak_valid; auto. cbn [s_x s_e s_origin s_pre].
  destruct (Z.lt_ge_cases a b) as [H|H]; [left|right; auto]. unfold s_origin; cbn.
  apply one_period_snoc; [now apply one_period_length|]. split; auto. specialize (Hab H). lia.
Qed.

(** The part of [splitStreak] from x = 0 on. *)
Definition split_right (p : list Z) (e : Z) (t1 : indices) (x1 : Z) : indices :=
  let '(t2, x2) :=
    if x1 <? e then
      let e' := Z.min e width in (normalize_streak t (mkStreak p x1 e') t1 dim, e')
    else (t1, x1) in
  if x2 <? e then normalize_streak t (mkStreak p (x2 - width) (e - width)) t2 dim else t2.

Lemma split_right_valid target p x e : tx = true -> rvalid d target -> one_period dp p ->
  (x < e -> 0 <= x < width) -> e <= 2 * width ->
  rvalid d (split_right p e target x) /\
  forall c, length c = S d -> (rin (split_right p e target x) c <-> rin target c \/ image (mkStreak p x e) c).
Proof.
  intros Htx Hv Hp Hx He. unfold split_right. destruct (Z.ltb_spec x e) as [H|H].
  2:{ assert (x <? e = false) as -> by lia. split; auto. intros c Hc.
      pose proof (image_empty (mkStreak p x e) c). cbn [s_x s_e] in *. tauto. }
  specialize (Hx H).
  destruct (normalize_image target p x (Z.min e width) Hv Hp ltac:(lia)) as [V1 I1].
  set (r1 := normalize_streak t (mkStreak p x (Z.min e width)) target dim) in *.
  destruct (Z.ltb_spec (Z.min e width) e) as [H'|H'].
  - destruct (normalize_image r1 p (Z.min e width - width) (e - width) V1 Hp ltac:(lia)) as [V2 I2].
    split; auto. intros c Hc. rewrite I2, I1 by auto. rewrite (image_split p x (Z.min e width) e) by lia.
    rewrite <- (image_shift p (Z.min e width) e (-1)); auto.
    2:{ rewrite (one_period_length dp); auto. }
    replace (Z.min e width + -1 * width) with (Z.min e width - width) by lia.
    replace (e + -1 * width) with (e - width) by lia. tauto.
  - split; auto. intros c Hc. rewrite I1 by auto. replace (Z.min e width) with e by lia. tauto.
Qed.

Lemma split_streak_valid target s : tx = true -> rvalid d target -> one_period dp (s_pre s) ->
  - width <= s_x s < width -> s_x s < s_e s <= 2 * width ->
  rvalid d (split_streak t s target dim) /\
  forall c, length c = S d -> (rin (split_streak t s target dim) c <-> rin target c \/ image s c).
Proof.
  intros Htx Hv Hs Hx He. destruct s as [p x e]. cbn [s_pre s_x s_e] in *.
  assert (Hpl : length p = d) by (rewrite (one_period_length dp); auto).
  assert (E : split_streak t (mkStreak p x e) target dim =
    if x <? 0 then split_right p e (normalize_streak t (mkStreak p (x + width) (Z.min e 0 + width)) target dim) (Z.min e 0)
    else split_right p e target x).
  { unfold split_streak, split_right. cbn [s_pre s_x s_e]. rewrite last_last. destruct (x <? 0); reflexivity. }
  rewrite E. destruct (Z.ltb_spec x 0) as [H|H]; [|apply split_right_valid; auto; lia].
  destruct (normalize_image target p (x + width) (Z.min e 0 + width) Hv Hs ltac:(lia)) as [V1 I1].
  destruct (split_right_valid _ p (Z.min e 0) e Htx V1 Hs) as [V2 I2]; [lia|lia|].
  split; auto. intros c Hc. rewrite I2, I1 by auto. rewrite (image_split p x (Z.min e 0) e) by lia.
  rewrite <- (image_shift p x (Z.min e 0) 1) by auto.
  rewrite Z.mul_1_l. tauto.
Qed.

Lemma trim_valid target s : tx = false -> rvalid d target -> one_period dp (s_pre s) ->
  let r' := normalize_streak t (trim_streak s dim) target dim in
  rvalid d r' /\ forall c, length c = S d -> (rin r' c <-> rin target c \/ image s c).
Proof.
  intros Htx Hv Hs. unfold trim_streak. rewrite last_last.
  destruct (normalize_image target (s_pre s) (Z.max (s_x s) 0) (Z.min width (s_e s)) Hv Hs ltac:(lia)) as [V I].
  split; auto. intros c Hc. rewrite I by auto.
  assert (Hpl : length (s_pre s) = d) by (rewrite (one_period_length dp); auto).
  enough (image (mkStreak (s_pre s) (Z.max (s_x s) 0) (Z.min width (s_e s))) c <-> image s c) by tauto.
  destruct (coord_split c d Hc) as (q & y & -> & Hq).
  unfold image, in_streak. cbn [s_pre s_x s_e].
  split; intros (c1 & (x & -> & Hx) & Hwr); exists (s_pre s ++ [x]); (split; [|exact Hwr]); exists x; split; auto;
    apply wraps_snoc in Hwr; try lia; rewrite Htx in Hwr; lia.
Qed.

Lemma wrap_all_valid l : forall target, rvalid d target ->
  (forall s, In s l -> one_period dp (s_pre s) /\ - width <= s_x s < width /\ s_x s < s_e s <= 2 * width) ->
  let r' := fold_left (fun ret s => if last t false then split_streak t s ret dim
                                    else normalize_streak t (trim_streak s dim) ret dim) l target in
  rvalid d r' /\ forall c, length c = S d -> (rin r' c <-> rin target c \/ exists c1, in_streaks l c1 /\ wraps_to t dim c1 c).
Proof.
  rewrite last_last. induction l as [|s l IH]; intros target Hv Hl; cbn [fold_left].
  - split; auto. intros c _. split; auto. intros [H|(c1 & H & _)]; auto. exfalso. eapply in_streaks_nil; eauto.
  - destruct (Hl s (or_introl eq_refl)) as (Hs & Hx & He).
    assert (H1 : let r1 := if tx then split_streak t s target dim else normalize_streak t (trim_streak s dim) target dim in
      rvalid d r1 /\ forall c, length c = S d -> (rin r1 c <-> rin target c \/ image s c)).
    { destruct tx eqn:E; rewrite <- E in *; [now apply split_streak_valid|now apply trim_valid]. }
    destruct H1 as [V1 I1]. destruct (IH _ V1) as [V2 I2]; [intros; apply Hl; now right|].
    split; auto. intros c Hc. rewrite I2, I1 by auto. unfold image. split.
    + intros [[H|(c1 & H1 & H2)]|(c1 & H1 & H2)]; auto; right; exists c1; split; auto; apply in_streaks_cons; auto.
    + intros [H|(c1 & H1 & H2)]; auto. apply in_streaks_cons in H1. destruct H1; eauto 6.
Qed.

End Wrap.

Lemma near_in_period dim : forall w c c0, allpos dim -> 0 <= w -> Forall (fun n => w <= n) dim ->
  in_grid dim c0 -> near (diagonal (length dim) w) c c0 -> one_period dim c.
Proof.
  induction dim as [|n dim IH]; intros w [|x c] [|x0 c0] Hp Hw Hd Hg Hn; try exact I; try (now destruct Hn); try (now destruct Hg).
  apply in_grid_cons in Hg. destruct Hg as [Hx Hg]. destruct Hn as [Hx' Hn].
  apply Forall_cons_iff' in Hp. apply Forall_cons_iff' in Hd. destruct Hp as [Hp1 Hp2], Hd as [Hd1 Hd2].
  split; [lia|]. eapply IH; eauto.
Qed.

Lemma near_snoc R : forall r a x b y, length a = length R -> length b = length R ->
  (near (R ++ [r]) (a ++ [x]) (b ++ [y]) <-> near R a b /\ y - r <= x <= y + r).
Proof.
  induction R as [|k R IH]; intros r [|u a] x [|v b] y Ha Hb; try discriminate; cbn [app near]; [tauto|].
  rewrite IH by (cbn in *; lia). tauto.
Qed.

Lemma diagonal_snoc n w : diagonal (S n) w = diagonal n w ++ [w].
Proof. unfold diagonal. cbn [repeat]. apply repeat_cons. Qed.

Lemma grid_snoc dim : forall n p x, length p = length dim ->
  (in_grid (dim ++ [n]) (p ++ [x]) <-> in_grid dim p /\ 0 <= x < n).
Proof.
  induction dim as [|m dim IH]; intros n [|y p] x H; try discriminate; cbn [app].
  - rewrite in_grid_cons. unfold in_grid. cbn. tauto.
  - rewrite !in_grid_cons, IH by (cbn in *; lia). tauto.
Qed.

(** [expandWithTopology] of a Region inside of the grid by no more than the
    grid's extents. *)
Lemma expand_topology_valid d r w dim t :
  rvalid d r -> length dim = S d -> length t = S d -> allpos dim -> 0 <= w -> Forall (fun n => w <= n) dim ->
  (forall c, length c = S d -> rin r c -> in_grid dim c) ->
  exists r', reg_expand_topology r w dim t = Some r' /\ rvalid d r' /\
    forall c, length c = S d ->
      (rin r' c <-> exists c0 c1, length c0 = S d /\ rin r c0 /\ near (diagonal (S d) w) c1 c0 /\ wraps_to t dim c1 c).
Proof.
  intros Hv Hdl Htl Hpos Hw Hwd Hin. unfold reg_expand_topology, reg_expand.
  rewrite (valid_length d r Hv).
  destruct (expand_valid d r (diagonal (S d) w) Hv) as (b & Eb & Vb & Hb).
  { unfold diagonal. apply repeat_length. }
  { unfold diagonal. apply Forall_forall. intros x Hx. apply repeat_spec in Hx. lia. }
  rewrite Eb. cbn [obind].
  destruct (streaks_valid d b Vb) as (l & Hok & Hl & El & _ & _). rewrite El. cbn [obind].
  assert (exists tp tx, t = tp ++ [tx] /\ length tp = d) as (tp & tx & -> & Htp).
  { exists (removelast t), (last t false). split; [now apply snoc_of with d|].
    pose proof (snoc_of t false d Htl) as E. rewrite E, app_length in Htl. cbn in Htl. lia. }
  assert (exists dp n, dim = dp ++ [n] /\ length dp = d) as (dp & n & -> & Hdp).
  { exists (removelast dim), (last dim 0). split; [now apply snoc_of with d|].
    pose proof (snoc_of dim 0 d Hdl) as E. rewrite E, app_length in Hdl. cbn in Hdl. lia. }
  apply Forall_app in Hpos. destruct Hpos as [Hposp Hposx]. apply Forall_app in Hwd. destruct Hwd as [Hwp Hwx].
  apply Forall_cons_iff' in Hposx. apply Forall_cons_iff' in Hwx. destruct Hposx as [Hn _], Hwx as [Hwn _].
  (* coordinates of the buffer *)
  assert (Hbuf : forall p x, length p = d -> rin b (p ++ [x]) ->
     exists p0 x0, length p0 = d /\ rin r (p0 ++ [x0]) /\ near (diagonal d w) p p0 /\ in_grid dp p0 /\
       0 <= x0 < n /\ x0 - w <= x <= x0 + w).
  { intros p x Hp Hc. apply Hb in Hc; [|rewrite app_length; cbn; lia]. destruct Hc as (c0 & Hc0 & Hr0 & Hnear).
    destruct (coord_split c0 d Hc0) as (p0 & x0 & -> & Hp0). pose proof (Hin _ Hc0 Hr0) as Hg.
    apply grid_snoc in Hg; [|lia]. rewrite diagonal_snoc in Hnear.
    apply near_snoc in Hnear; [|unfold diagonal; rewrite repeat_length; lia|unfold diagonal; rewrite repeat_length; lia].
    exists p0, x0. intuition. }
  destruct (wrap_all_valid d tp tx dp n Htp Hdp Hposp Hn l (reg_empty (S d)) (rvalid_empty d)) as [V I].
  { intros s Hs. destruct Hok as [Hsort Hf]. rewrite Forall_forall in Hf. destruct (Hf s Hs) as [Hsl Hne].
    assert (Hmem : forall x, s_x s <= x < s_e s -> rin b (s_pre s ++ [x])).
    { intros x Hx. apply Hl; [rewrite app_length; cbn; lia|]. exists s. split; auto. now apply in_streak_snoc. }
    destruct (Hbuf (s_pre s) (s_x s) Hsl (Hmem (s_x s) ltac:(lia))) as (p0 & x0 & Hp0 & Hr0 & Hnp & Hgp & Hx0 & Hx).
    destruct (Hbuf (s_pre s) (s_e s - 1) Hsl (Hmem (s_e s - 1) ltac:(lia))) as (p1 & x1 & _ & _ & _ & _ & Hx1 & Hx').
    split; [apply (near_in_period dp w _ p0); auto; now rewrite Hdp|].
    split; [|split; [auto|lia]]. split; [lia|].
    (* the streak does not start right of the grid *)
    destruct (Z.lt_ge_cases (s_x s) n) as [|Hge]; [auto|exfalso].
    assert (Hpre : rin b (s_pre s ++ [s_x s - 1])).
    { apply Hb; [rewrite app_length; cbn; lia|]. exists (p0 ++ [x0]). split; [rewrite app_length; cbn; lia|].
      split; auto. rewrite diagonal_snoc. apply near_snoc; [unfold diagonal; rewrite repeat_length; lia|unfold diagonal; rewrite repeat_length; lia|].
      split; auto. lia. }
    apply Hl in Hpre; [|rewrite app_length; cbn; lia]. destruct Hpre as (s' & Hs' & Hc'). apply in_streak_snoc in Hc'.
    destruct Hc' as [Ep Hxx].
    apply in_split in Hs. destruct Hs as (l1 & l2 & ->).
    apply in_app_iff in Hs'. destruct Hs' as [Hs'|[->|Hs']]; [| lia |].
    - assert (streak_before s' s) as [Hlt|[_ Hlt]].
      { clear - Hsort Hs'. induction l1 as [|a l1 IH]; [destruct Hs'|]. cbn in Hsort. apply StronglySorted_inv in Hsort.
        destruct Hsort as [H1 H2]. destruct Hs' as [->|Hs']; auto. rewrite Forall_forall in H2. apply H2.
        apply in_or_app. right. now left. }
      + rewrite <- Ep in Hlt. eapply coord_lt_irrefl; eauto.
      + lia.
    - assert (streak_before s s') as [Hlt|[_ Hlt]].
      { clear - Hsort Hs'. induction l1 as [|a l1 IH]; cbn in Hsort; apply StronglySorted_inv in Hsort; destruct Hsort as [H1 H2]; auto.
        rewrite Forall_forall in H2. auto. }
      + rewrite <- Ep in Hlt. eapply coord_lt_irrefl; eauto.
      + specialize (Hf s' ltac:(apply in_or_app; right; now right)). lia. }
  eexists. split; [reflexivity|]. split; [exact V|]. intros c Hc. rewrite I by auto. pose proof (rin_empty d c Hc) as Hre.
  split.
  - intros [H|(c1 & H1 & H2)]; [contradiction|].
    assert (length c1 = S d) by (apply wraps_length in H2; rewrite app_length in H2; cbn in H2; lia).
    apply Hl in H1; auto. apply Hb in H1; auto. destruct H1 as (c0 & Hc0 & Hr0 & Hnear). exists c0, c1. auto.
  - intros (c0 & c1 & Hc0 & Hr0 & Hnear & Hwr). right. exists c1. split; auto.
    assert (length c1 = S d) by (apply wraps_length in Hwr; rewrite app_length in Hwr; cbn in Hwr; lia).
    apply Hl; auto. apply Hb; auto. exists c0. auto.
Qed.
