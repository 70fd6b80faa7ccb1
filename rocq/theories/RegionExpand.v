(** Facts on [expand] and [expandWithTopology]. *)
From Verif Require Import Base ListFacts RegionSpec RegionModel RegionRep RegionIterModel RegionStreaks
  CoordModel CoordSpec RegionOpsModel RegionOps CoordFacts TopologyFacts.

(** ** Vectors *)

Lemma zadd_length a : forall b, length a = length b -> length (zadd a b) = length a.
Proof. induction a as [|x a IH]; intros [|y b] H; cbn in *; try discriminate; auto. Qed.

Lemma axis_length n i k : (i < n)%nat -> length (axis_coord n i k) = n.
Proof. intros. unfold axis_coord. rewrite app_length. cbn [length]. rewrite !repeat_length. lia. Qed.

Lemma zadd_zeros c : forall n, n = length c -> zadd c (repeat 0 n) = c.
Proof. induction c as [|x c IH]; intros n ->; cbn; auto. f_equal; [lia|auto]. Qed.

Lemma zadd_axis c : forall i k, (i < length c)%nat ->
  zadd c (axis_coord (length c) i k) = firstn i c ++ (nth i c 0 + k) :: skipn (S i) c.
Proof.
  unfold axis_coord. induction c as [|x c IH]; intros i k Hi; cbn in Hi; [lia|]. destruct i as [|i].
  - cbn [repeat app length Nat.sub zadd firstn nth skipn]. f_equal. rewrite Nat.sub_0_r. now apply zadd_zeros.
  - cbn [repeat app length Nat.sub zadd firstn nth]. f_equal; [lia|]. rewrite <- IH by lia. reflexivity.
Qed.

(** Displacing [c] by [k] along the axis at position [i]. *)
Definition bump (i : nat) (k : Z) (c : coord) : coord := zadd c (axis_coord (length c) i k).

Lemma bump_length i k c : (i < length c)%nat -> length (bump i k c) = length c.
Proof. intros. unfold bump. apply zadd_length. now rewrite axis_length. Qed.

Lemma bump_bump c : forall i j k, (i < length c)%nat -> bump i j (bump i k c) = bump i (j + k) c.
Proof.
  unfold bump, axis_coord. induction c as [|x c IH]; intros i j k Hi; cbn in Hi; [lia|]. destruct i as [|i].
  - cbn [repeat app length Nat.sub zadd]. rewrite !Nat.sub_0_r.
    rewrite (zadd_zeros c) by auto. f_equal; [lia|]. now apply zadd_zeros.
  - cbn [repeat app length Nat.sub zadd]. f_equal; [lia|]. apply IH. lia.
Qed.

Lemma bump_zero c : forall i, (i < length c)%nat -> bump i 0 c = c.
Proof.
  unfold bump, axis_coord. induction c as [|x c IH]; intros i Hi; cbn in Hi; [lia|]. destruct i as [|i].
  - cbn [repeat app length Nat.sub zadd]. rewrite !Nat.sub_0_r. f_equal; [lia|]. now apply zadd_zeros.
  - cbn [repeat app length Nat.sub zadd]. f_equal; [lia|]. apply IH. lia.
Qed.

Lemma map_repeat' {A B} (f : A -> B) x n : map f (repeat x n) = repeat (f x) n.
Proof. induction n; cbn; congruence. Qed.

Lemma opp_axis n i k : map Z.opp (axis_coord n i k) = axis_coord n i (- k).
Proof. unfold axis_coord. rewrite map_app. cbn [map]. now rewrite !map_repeat'. Qed.

Lemma zadd_inj a : forall b off, length a = length off -> length b = length off ->
  (zadd a off = b <-> a = zadd b (map Z.opp off)).
Proof.
  induction a as [|x a IH]; intros [|y b] [|o off] H1 H2; try discriminate; cbn; [tauto|].
  cbn in H1, H2. split.
  - intros [= <- <-]. f_equal; [lia|]. apply IH; rewrite ?zadd_length; auto; lia.
  - intros [= -> ->]. f_equal; [lia|]. apply IH; rewrite ?zadd_length; rewrite ?map_length; auto; lia.
Qed.

Lemma zadd_snoc a x b y : length a = length b -> zadd (a ++ [x]) (b ++ [y]) = zadd a b ++ [x + y].
Proof. revert b. induction a as [|u a IH]; intros [|v b] H; try discriminate; cbn; auto. f_equal. auto. Qed.

Lemma zadd_firstn a : forall b, (length a <= length b)%nat -> zadd a b = zadd a (firstn (length a) b).
Proof. induction a as [|x a IH]; intros [|y b] H; cbn in *; try lia; auto. f_equal. apply IH. lia. Qed.

(** Shifted streaks. *)
Lemma in_shift d off al s p x :
  length off = S d -> length (s_pre s) = d -> length p = d ->
  (in_streak (s_shift off al s) (p ++ [x]) <->
   exists p', s_pre s = p' /\ zadd p' (removelast off) = p /\ s_x s + last off 0 <= x < s_e s + last off 0 + al).
Proof.
  intros Ho Hs Hp. rewrite in_streak_snoc. cbn [s_shift s_pre s_x s_e].
  assert (E : zadd (s_pre s) off = zadd (s_pre s) (removelast off)).
  { pose proof (snoc_of off 0 d Ho) as Eo. assert (length (removelast off) = d) by (rewrite Eo, app_length in Ho; cbn in Ho; lia).
    rewrite zadd_firstn by lia. rewrite (zadd_firstn _ (removelast off)) by lia.
    rewrite Eo at 1. rewrite firstn_app. replace (length (s_pre s) - length (removelast off))%nat with O by lia.
    cbn [firstn]. now rewrite app_nil_r. }
  rewrite E. split; [intros [-> H]; eauto|intros (? & -> & <- & H); auto].
Qed.

Lemma in_shift0 d off l c : length off = S d -> dims_ok d l -> length c = S d ->
  (in_streaks (map (s_shift off 0) l) c <-> in_streaks l (zadd c (map Z.opp off))).
Proof.
  intros Ho Hl Hc. destruct (coord_split c d Hc) as (p & x & -> & Hp).
  pose proof (snoc_of off 0 d Ho) as Eo. set (po := removelast off) in *. set (lo := last off 0) in *.
  assert (Hpo : length po = d) by (rewrite Eo, app_length in Ho; cbn in Ho; lia).
  assert (Ez : zadd (p ++ [x]) (map Z.opp off) = zadd p (map Z.opp po) ++ [x - lo]).
  { rewrite Eo, map_app. cbn [map]. rewrite zadd_snoc by (rewrite map_length; lia). f_equal. }
  rewrite Ez. unfold in_streaks. split.
  - intros (s' & Hs' & H). apply in_map_iff in Hs'. destruct Hs' as (s & <- & Hs).
    assert (length (s_pre s) = d) by (unfold dims_ok in Hl; rewrite Forall_forall in Hl; auto).
    apply (in_shift d) in H; auto. destruct H as (p' & E1 & E2 & H). fold po lo in E2, H.
    exists s. split; auto. apply in_streak_snoc. split; [|lia].
    symmetry. rewrite E1. apply zadd_inj; try congruence. 
  - intros (s & Hs & H). exists (s_shift off 0 s). split; [now apply in_map|].
    assert (length (s_pre s) = d) by (unfold dims_ok in Hl; rewrite Forall_forall in Hl; auto).
    apply in_streak_snoc in H. destruct H as [E H]. apply (in_shift d); auto. exists (s_pre s).
    split; auto. split; [|fold lo; lia]. fold po. apply zadd_inj; try congruence.
Qed.

Lemma shift_dims d off al l : (d <= length off)%nat -> dims_ok d l -> dims_ok d (map (s_shift off al) l).
Proof.
  unfold dims_ok. intros Ho Hl. rewrite Forall_forall in *. intros s' Hs'. apply in_map_iff in Hs'. destruct Hs' as (s & <- & Hs).
  cbn. specialize (Hl s Hs). rewrite zadd_firstn, zadd_length; auto; rewrite ?firstn_length; lia.
Qed.

(** ** One axis *)

Lemma merge_shifted3_valid d acc i k : rvalid d acc -> (i <= d)%nat ->
  exists r', merge_shifted3 acc (axis_coord (length acc) i k) = Some r' /\ rvalid d r' /\
    forall c, length c = S d ->
      (rin r' c <-> rin acc (bump i k c) \/ rin acc c \/ rin acc (bump i (- k) c)).
Proof.
  intros Hv Hi. pose proof (valid_length d acc Hv) as Hlen. rewrite Hlen.
  destruct (streaks_valid d acc Hv) as (l & Hok & Hin & El & Eoff & _). apply ok_dims in Hok.
  unfold merge_shifted3. rewrite opp_axis. rewrite !Eoff by (rewrite axis_length; lia). rewrite El. cbn [obind].
  rewrite Hlen.
  assert (Hd : forall k, dims_ok d (map (s_shift (axis_coord (S d) i k) 0) l))
    by (intros; apply shift_dims; auto; rewrite axis_length; lia).
  destruct (merge3way_valid d (reg_empty (S d)) _ l _ (rvalid_empty d) (Hd (- k)) Hok (Hd k)) as (r' & E & V & H).
  rewrite E. exists r'. split; auto. split; auto. intros c Hc. rewrite H by auto.
  rewrite !(in_shift0 d) by (auto; rewrite axis_length; lia).
  rewrite !opp_axis, Z.opp_involutive. pose proof (rin_empty d c Hc).
  rewrite !Hin by (rewrite ?bump_length; lia). unfold bump. rewrite Hc. tauto.
Qed.

Lemma merge_shifted2_valid d acc i k : rvalid d acc -> (i <= d)%nat ->
  exists r', merge_shifted2 acc (axis_coord (length acc) i k) = Some r' /\ rvalid d r' /\
    forall c, length c = S d -> (rin r' c <-> rin acc (bump i k c) \/ rin acc (bump i (- k) c)).
Proof.
  intros Hv Hi. pose proof (valid_length d acc Hv) as Hlen. rewrite Hlen.
  destruct (streaks_valid d acc Hv) as (l & Hok & Hin & El & Eoff & _). apply ok_dims in Hok.
  unfold merge_shifted2. rewrite opp_axis. rewrite !Eoff by (rewrite axis_length; lia). cbn [obind].
  rewrite Hlen.
  assert (Hd : forall k, dims_ok d (map (s_shift (axis_coord (S d) i k) 0) l))
    by (intros; apply shift_dims; auto; rewrite axis_length; lia).
  destruct (merge2way_valid d (reg_empty (S d)) _ _ (rvalid_empty d) (Hd (- k)) (Hd k)) as (r' & E & V & H).
  rewrite E. exists r'. split; auto. split; auto. intros c Hc. rewrite H by auto.
  rewrite !(in_shift0 d) by (auto; rewrite axis_length; lia).
  rewrite !opp_axis, Z.opp_involutive. pose proof (rin_empty d c Hc).
  rewrite !Hin by (rewrite ?bump_length; lia). unfold bump. rewrite Hc. tauto.
Qed.

(** [P] dilated by [h] along axis [i]. *)
Definition dilated (i : nat) (h : Z) (P : coord -> Prop) (c : coord) : Prop :=
  exists j, - h <= j <= h /\ P (bump i j c).

Lemma dilated3 d i h k (P : coord -> Prop) c : (i <= d)%nat -> length c = S d -> 0 <= h -> 0 <= k <= 2 * h + 1 ->
  (dilated i h P (bump i k c) \/ dilated i h P c \/ dilated i h P (bump i (- k) c) <-> dilated i (h + k) P c).
Proof.
  intros Hi Hc Hh Hk. unfold dilated. split.
  - intros [(j & Hj & H)|[(j & Hj & H)|(j & Hj & H)]].
    + rewrite bump_bump in H by lia. exists (j + k). split; auto. lia.
    + exists j. split; auto. lia.
    + rewrite bump_bump in H by lia. exists (j + - k). split; auto. lia.
  - intros (j & Hj & H). destruct (Z.lt_ge_cases j (- h)) as [Hl|Hl]; [|destruct (Z.lt_ge_cases h j) as [Hg|Hg]].
    + right; right. exists (j + k). split; [lia|]. rewrite bump_bump by lia. now replace (j + k + - k) with j by lia.
    + left. exists (j - k). split; [lia|]. rewrite bump_bump by lia. now replace (j - k + k) with j by lia.
    + right; left. exists j. split; [lia|auto].
Qed.

Lemma dilated2 d i h k (P : coord -> Prop) c : (i <= d)%nat -> length c = S d -> 0 <= h -> 0 <= 2 * k <= 2 * h + 1 ->
  (dilated i h P (bump i k c) \/ dilated i h P (bump i (- k) c) <-> dilated i (h + k) P c).
Proof.
  intros Hi Hc Hh Hk. unfold dilated. split.
  - intros [(j & Hj & H)|(j & Hj & H)]; rewrite bump_bump in H by lia; eexists; (split; [|exact H]); lia.
  - intros (j & Hj & H). destruct (Z.lt_ge_cases j 0) as [Hl|Hl].
    + right. exists (j + k). split; [lia|]. rewrite bump_bump by lia. now replace (j + k + - k) with j by lia.
    + left. exists (j - k). split; [lia|]. rewrite bump_bump by lia. now replace (j - k + k) with j by lia.
Qed.

Section Axis.
Variables (d i : nat) (P : coord -> Prop) (r : Z).
Hypothesis (Hi : (i <= d)%nat) (Hr : 0 <= r).

Lemma expand_loop_valid : forall fuel h acc,
  (Z.to_nat (2 * r + 1 - (2 * h + 1)) <= fuel)%nat -> 0 <= h <= r -> rvalid d acc ->
  (forall c, length c = S d -> (rin acc c <-> dilated i h P c)) ->
  exists h' acc', expand_loop fuel i (2 * r + 1) (2 * h + 1) acc = Some (2 * h' + 1, acc') /\
    0 <= h' <= r /\ 2 * r + 1 <= 3 * (2 * h' + 1) /\ rvalid d acc' /\
    (forall c, length c = S d -> (rin acc' c <-> dilated i h' P c)).
Proof.
  induction fuel as [|f IH]; intros h acc Hf Hh Hv Hacc.
  - cbn [expand_loop]. assert (h = r) by lia. subst h.
    replace (2 * r + 1 <? (2 * r + 1 + 2) / 3) with false by (symmetry; apply Z.ltb_ge; apply Z.div_le_upper_bound; lia).
    exists r, acc. split; auto. split; auto. split; [lia|auto].
  - cbn [expand_loop]. destruct (Z.ltb_spec (2 * h + 1) ((2 * r + 1 + 2) / 3)) as [H|H].
    + assert (3 * (2 * h + 1) <= 2 * r + 1).
      { pose proof (Z.mul_div_le (2 * r + 1 + 2) 3). lia. }
      destruct (merge_shifted3_valid d acc i (2 * h + 1) Hv Hi) as (r' & E & V & Hr').
      rewrite E. cbn [obind].
      replace ((2 * h + 1) * 3) with (2 * (3 * h + 1) + 1) by lia.
      apply IH; auto; try lia.
      intros c Hc. rewrite Hr' by auto. rewrite !Hacc by (rewrite ?bump_length; lia).
      rewrite (dilated3 d) by (auto; lia). replace (h + (2 * h + 1)) with (3 * h + 1) by lia. tauto.
    + exists h, acc. split; auto. split; auto. split; [|split; auto].
      pose proof (Z.mod_pos_bound (2 * r + 1 + 2) 3). pose proof (Z.div_mod (2 * r + 1 + 2) 3). lia.
Qed.

Lemma expand_one_valid acc : rvalid d acc -> (forall c, length c = S d -> (rin acc c <-> P c)) ->
  exists acc', expand_one i r acc = Some acc' /\ rvalid d acc' /\
    (forall c, length c = S d -> (rin acc' c <-> dilated i r P c)).
Proof.
  intros Hv Hacc. unfold expand_one.
  destruct (expand_loop_valid (Z.to_nat (2 * r + 1)) 0 acc) as (h & acc' & E & Hh & Hg & V & Hc); auto; try lia.
  { intros c Hc. rewrite Hacc by auto. unfold dilated. split.
    - intros H. exists 0. split; [lia|]. rewrite bump_zero by lia. auto.
    - intros (j & Hj & H). assert (j = 0) by lia. subst j. rewrite bump_zero in H by lia. auto. }
  change (2 * 0 + 1) with 1 in E. rewrite E. cbn [obind].
  replace (length acc) with (length acc') by (rewrite (valid_length d acc), (valid_length d acc'); auto).
  destruct (Z.ltb_spec (2 * h + 1) (2 * r + 1)) as [H|H].
  - assert (Ed : (2 * h + 1) / 2 = h) by (symmetry; apply (Z.div_unique (2 * h + 1) 2 h 1); lia).
    rewrite Ed. destruct (Z.ltb_spec ((2 * h + 1) * 2) (2 * r + 1)) as [H'|H'].
    + destruct (merge_shifted3_valid d acc' i (r - h) V Hi) as (r' & E' & V' & Hr').
      exists r'. split; auto. split; auto. intros c Hc'. rewrite Hr' by auto.
      rewrite !Hc by (rewrite ?bump_length; lia). rewrite (dilated3 d) by (auto; lia).
      now replace (h + (r - h)) with r by lia.
    + destruct (merge_shifted2_valid d acc' i (r - h) V Hi) as (r' & E' & V' & Hr').
      exists r'. split; auto. split; auto. intros c Hc'. rewrite Hr' by auto.
      rewrite !Hc by (rewrite ?bump_length; lia). rewrite (dilated2 d) by (auto; lia).
      now replace (h + (r - h)) with r by lia.
  - assert (h = r) by lia. subst h. exists acc'. auto.
Qed.
End Axis.

(** ** All axes *)

Lemma near_length rad : forall c c0, near rad c c0 -> length c = length rad /\ length c0 = length rad.
Proof.
  induction rad as [|r rad IH]; intros [|x c] [|y c0] H; cbn in H; try tauto; auto.
  destruct H as [_ H]. apply IH in H. cbn. lia.
Qed.

Lemma near_bump r R : 0 <= r -> forall i c c0, length c = (i + S (length R))%nat ->
  ((exists j, - r <= j <= r /\ near (repeat 0 i ++ 0 :: R) (bump i j c) c0) <-> near (repeat 0 i ++ r :: R) c c0).
Proof.
  intros Hr. induction i as [|i IH]; intros [|x c] [|y c0] Hl; try discriminate Hl; cbn [repeat app].
  - unfold bump, axis_coord. cbn. split; [intros (j & _ & [])|tauto].
  - assert (E : forall j, bump 0 j (x :: c) = x + j :: c).
    { intros j. unfold bump, axis_coord. cbn [repeat app length Nat.sub zadd]. rewrite Nat.sub_0_r. f_equal. now apply zadd_zeros. }
    cbn [near]. split.
    + intros (j & Hj & H). rewrite E in H. cbn [near] in H. split; [lia|tauto].
    + intros [H1 H2]. exists (y - x). rewrite E. cbn [near]. repeat split; auto; lia.
  - cbn [near]. split; [intros (j & _ & H); destruct H|tauto].
  - assert (E : forall j, bump (S i) j (x :: c) = x :: bump i j c).
    { intros j. unfold bump, axis_coord. cbn [repeat app length Nat.sub zadd]. f_equal. lia. }
    cbn in Hl. cbn [near]. rewrite <- IH by lia. split.
    + intros (j & Hj & H). rewrite E in H. cbn [near] in H. destruct H. split; auto. eauto.
    + intros [H1 (j & Hj & H2)]. exists j. split; auto. rewrite E. cbn [near]. auto.
Qed.

Lemma skipn_S {A} (l : list A) : forall m x r, skipn m l = x :: r -> skipn (S m) l = r.
Proof. induction l as [|a l IH]; intros [|m] x r H; cbn in *; try discriminate; [congruence|eauto]. Qed.

Lemma expand_dims_valid d radii (P : coord -> Prop) : length radii = S d -> Forall (fun r => 0 <= r) radii ->
  forall m acc, (m <= d)%nat -> rvalid d acc ->
  (forall c, length c = S d -> (rin acc c <-> exists c0, P c0 /\ near (repeat 0 m ++ skipn m radii) c c0)) ->
  exists acc', expand_dims (seq (S d - m) m) radii acc = Some acc' /\ rvalid d acc' /\
    (forall c, length c = S d -> (rin acc' c <-> exists c0, P c0 /\ near radii c c0)).
Proof.
  intros Hl Hpos. induction m as [|m IH]; intros acc Hm Hv Hacc.
  - cbn. exists acc. auto.
  - replace (S d - S m)%nat with (d - m)%nat by lia. cbn [seq expand_dims].
    rewrite Hl. replace (S d - 1 - (d - m))%nat with m by lia.
    destruct (skipn m radii) as [|r R] eqn:Es.
    { apply (f_equal (@length Z)) in Es. rewrite skipn_length in Es. cbn in Es. lia. }
    assert (Hn : nth m radii 0 = r).
    { rewrite <- (firstn_skipn m radii), Es. rewrite app_nth2 by (rewrite firstn_length; lia).
      rewrite firstn_length, Nat.min_l by lia. now rewrite Nat.sub_diag. }
    assert (HR : skipn (S m) radii = R).
    { now apply skipn_S in Es. }
    assert (HlR : length radii = (m + S (length R))%nat).
    { rewrite <- (firstn_skipn m radii), app_length, Es, firstn_length. cbn. lia. }
    assert (Hr0 : 0 <= r).
    { rewrite Forall_forall in Hpos. apply Hpos. rewrite <- Hn. apply nth_In. lia. }
    rewrite Hn.
    destruct (expand_one_valid d m (fun c => exists c0, P c0 /\ near (repeat 0 (S m) ++ R) c c0) r
       ltac:(lia) Hr0 acc Hv) as (acc' & E & V & Hc).
    { intros c Hc. rewrite Hacc by auto. now rewrite HR. }
    rewrite E. cbn [obind]. replace (S (d - m)) with (S d - m)%nat by lia.
    apply IH; auto; [lia|]. intros c Hlc. rewrite Hc by auto. unfold dilated.
    assert (Erep : forall j c0, near (repeat 0 (S m) ++ R) (bump m j c) c0 <-> near (repeat 0 m ++ 0 :: R) (bump m j c) c0).
    { intros. replace (repeat 0 (S m) ++ R) with (repeat 0 m ++ 0 :: R); [tauto|].
      change (repeat 0 (S m)) with (0 :: repeat 0 m). rewrite repeat_cons, <- app_assoc. reflexivity. }
    split.
    + intros (j & Hj & c0 & HP & H). exists c0. split; auto. apply near_bump; [auto|lia|].
      exists j. split; auto. now apply Erep.
    + intros (c0 & HP & H). apply near_bump in H; [|auto|lia]. destruct H as (j & Hj & H).
      exists j. split; auto. exists c0. split; auto. now apply Erep.
Qed.

Lemma near_zeros m : forall R a b x y, length a = m -> length b = m ->
  (near (repeat 0 m ++ [R]) (a ++ [x]) (b ++ [y]) <-> a = b /\ y - R <= x <= y + R).
Proof.
  induction m as [|m IH]; intros R [|u a] [|v b] x y Ha Hb; try discriminate; cbn [repeat app near].
  - split; [tauto|]. intros [_ H]; auto.
  - rewrite IH by (cbn in *; lia). split; [intros (H1 & -> & H2); split; auto; f_equal; lia|].
    intros [[= -> ->] H]. split; [lia|auto].
Qed.

Lemma expand_valid d r radii : rvalid d r -> length radii = S d -> Forall (fun k => 0 <= k) radii ->
  exists r', reg_expand_radii r radii = Some r' /\ rvalid d r' /\
    forall c, length c = S d -> (rin r' c <-> exists c0, length c0 = S d /\ rin r c0 /\ near radii c c0).
Proof.
  intros Hv Hl Hp. unfold reg_expand_radii. pose proof (valid_length d r Hv) as Hlen.
  destruct (streaks_valid d r Hv) as (l & Hok & Hin & El & Eoff & _).
  rewrite Hlen. rewrite Eoff by (rewrite axis_length; lia). cbn [obind].
  replace (S d - 1)%nat with d by lia. set (rx := last radii 0). set (off := axis_coord (S d) d (- rx)).
  assert (Hrx : 0 <= rx).
  { rewrite Forall_forall in Hp. apply Hp. unfold rx. rewrite (snoc_of radii 0 d Hl) at 2. apply in_or_app. right. now left. }
  assert (Eoff' : off = repeat 0 d ++ [- rx]).
  { unfold off, axis_coord. now replace (S d - S d)%nat with O by lia. }
  assert (Hd : dims_ok d (map (s_shift off (rx * 2)) l)).
  { apply shift_dims; [unfold off; rewrite axis_length; lia|]. now apply ok_dims. }
  destruct (insert_all_valid d _ _ (rvalid_empty d) Hd) as [V0 H0].
  replace (seq 1 d) with (seq (S d - d) d) by (f_equal; lia).
  destruct (expand_dims_valid d radii (fun c0 => length c0 = S d /\ rin r c0) Hl Hp d _ (le_n d) V0) as (r' & E & V & H).
  - intros c Hc. rewrite H0 by auto. pose proof (rin_empty d c Hc) as Hre.
    destruct (coord_split c d Hc) as (p & x & -> & Hpl).
    replace (skipn d radii) with [rx].
    2:{ rewrite (snoc_of radii 0 d Hl). rewrite skipn_app. fold rx.
        assert (length (removelast radii) = d) as ->.
        { rewrite (snoc_of radii 0 d Hl), app_length in Hl. cbn in Hl. lia. }
        rewrite skipn_all2, Nat.sub_diag; auto.
        rewrite (snoc_of radii 0 d Hl), app_length in Hl. cbn in Hl. lia. }
    assert (Hs : forall s, In s l -> length (s_pre s) = d /\ s_x s < s_e s).
    { destruct Hok as [_ Hf]. rewrite Forall_forall in Hf. auto. }
    assert (Hpre : forall s, In s l -> zadd (s_pre s) (removelast off) = s_pre s).
    { intros s Hin'. rewrite Eoff', removelast_last. apply zadd_zeros. symmetry. now apply Hs. }
    split.
    + intros [Hre'|(s' & Hs' & Hc')]; [contradiction|]. apply in_map_iff in Hs'. destruct Hs' as (s & <- & Hin').
      apply (in_shift d) in Hc'; auto; [|unfold off; rewrite axis_length; lia|now apply Hs].
      destruct Hc' as (p' & E1 & E2 & Hx). rewrite <- E1, Hpre in E2 by auto.
      rewrite Eoff', last_last in Hx. destruct (Hs s Hin') as [Hsl Hne].
      exists (s_pre s ++ [Z.max (s_x s) (Z.min (s_e s - 1) x)]). split.
      * split; [rewrite app_length; cbn; lia|]. apply Hin; [rewrite app_length; cbn; lia|].
        exists s. split; auto. apply in_streak_snoc. split; auto. lia.
      * apply near_zeros; auto. split; auto. lia.
    + intros (c0 & [Hc0 Hr0] & Hn). right. destruct (coord_split c0 d Hc0) as (p0 & x0 & -> & Hp0).
      apply near_zeros in Hn; auto. destruct Hn as [-> Hn]. apply Hin in Hr0; auto.
      destruct Hr0 as (s & Hin' & Hs0). exists (s_shift off (rx * 2) s). split; [now apply in_map|].
      destruct (Hs s Hin') as [Hsl Hne].
      apply (in_shift d); auto; [unfold off; rewrite axis_length; lia|]. exists (s_pre s). split; auto.
      apply in_streak_snoc in Hs0. destruct Hs0 as [-> Hx0]. split; [now apply Hpre|].
      rewrite Eoff', last_last. lia.
  - exists r'. split; [exact E|]. split; auto. intros c Hc. rewrite H by auto.
    split; intros (c0 & H1); exists c0; tauto.
Qed.
