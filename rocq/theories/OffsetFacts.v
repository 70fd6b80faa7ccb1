(** Facts on OffsetHelper. *)
From Verif Require Import Base RegionSpec RegionModel RegionIterModel RegionRep RegionStreaks RegionOpsModel RegionOps RegionGeometry RegionHist CoordModel CoordSpec CoordFacts HaloSpec PartitionManagerModel PartitionManagerFacts ConfigFacts GridModel GridSpec UpdateModel OffsetModel OffsetSpec.
From Coq Require Import Sorted.

(** ** Axes *)

Lemma axis_nth i c : (i < length c)%nat -> axis i c = nth (length c - S i) c 0.
Proof. intros H. unfold axis. now apply rev_nth. Qed.

Lemma nth_axis j c : (j < length c)%nat -> nth j c 0 = axis (length c - S j) c.
Proof. intros H. rewrite axis_nth by lia. f_equal. lia. Qed.

Lemma axis_cons x c i : axis i (x :: c) = if Nat.eqb i (length c) then x else if Nat.ltb i (length c) then axis i c else 0.
Proof.
  unfold axis. cbn [rev]. destruct (Nat.eqb_spec i (length c)) as [->|Hi].
  - rewrite app_nth2; rewrite rev_length; [|lia]. now rewrite Nat.sub_diag.
  - destruct (Nat.ltb_spec i (length c)).
    + now rewrite app_nth1 by (rewrite rev_length; lia).
    + apply nth_overflow. rewrite app_length, rev_length. cbn. lia.
Qed.

Lemma axis_ext a b : length a = length b -> (forall i, (i < length a)%nat -> axis i a = axis i b) -> a = b.
Proof.
  intros Hl H. apply nth_ext with 0 0; [exact Hl|]. intros j Hj. rewrite !nth_axis by lia. rewrite <- Hl. apply H. lia.
Qed.

Lemma inside_axis o n c : inside o n c <-> length o = length n /\ length c = length n /\
  forall i, (i < length n)%nat -> axis i o <= axis i c < axis i o + axis i n.
Proof.
  assert (H : inside o n c <-> length o = length n /\ length c = length n /\
    forall j, (j < length n)%nat -> nth j o 0 <= nth j c 0 < nth j o 0 + nth j n 0).
  { revert n c. induction o as [|x o IH]; intros [|m n] [|y c]; cbn [inside length].
    - split; [|tauto]. intros _. split; [auto|]. split; [auto|]. intros j Hj. lia.
    - split; [tauto|lia].
    - split; [tauto|lia].
    - split; [tauto|lia].
    - split; [tauto|lia].
    - split; [tauto|lia].
    - split; [tauto|lia].
    - rewrite IH. split.
      + intros (H1 & H2 & H3 & H4). split; [lia|]. split; [lia|]. intros [|j] Hj; cbn [nth]; [lia|]. apply H4. lia.
      + intros (H2 & H3 & H4). split; [apply (H4 0%nat); lia|]. split; [lia|]. split; [lia|]. intros j Hj. apply (H4 (S j)). lia. }
  rewrite H. split; intros (H1 & H2 & H3); (split; [exact H1|]; split; [exact H2|]).
  - intros i Hi. rewrite !axis_nth by lia. rewrite H1, H2. apply H3. lia.
  - intros j Hj. rewrite !nth_axis by lia. rewrite H1, H2. apply H3. lia.
Qed.

Lemma set_axis_length i v c : (i < length c)%nat -> length (set_axis i v c) = length c.
Proof.
  intros H. unfold set_axis. rewrite rev_length, app_length, firstn_length, rev_length. cbn [length]. rewrite skipn_length, rev_length. lia.
Qed.

Lemma skipn_tl {A} i : forall l : list A, skipn (S i) l = tl (skipn i l).
Proof. induction i as [|i IH]; intros [|x l]; try reflexivity. exact (IH l). Qed.

Lemma set_axis_axis i v c j : (i < length c)%nat -> axis j (set_axis i v c) = if Nat.eqb j i then v else axis j c.
Proof.
  intros H. unfold axis, set_axis. rewrite rev_involutive. assert (L : length (firstn i (rev c)) = i) by (rewrite firstn_length, rev_length; lia).
  destruct (Nat.eqb_spec j i) as [->|Hj].
  - rewrite app_nth2 by lia. rewrite L, Nat.sub_diag. reflexivity.
  - rewrite <- (firstn_skipn i (rev c)) at 3. destruct (Nat.lt_ge_cases j i).
    + now rewrite !app_nth1 by lia.
    + rewrite !app_nth2 by lia. rewrite L. destruct (j - i)%nat as [|k] eqn:Ek; [lia|]. cbn [nth].
      rewrite (skipn_tl i (rev c)). destruct (skipn i (rev c)); [destruct k; reflexivity|reflexivity].
Qed.

(** ** The box found for all axes *)

Lemma offset_axes_spec t r sim k : (forall i, (i < k)%nat -> exists on, offset_axis t r sim i = Some on) ->
  exists b, offset_axes t r sim k = Some b /\ length (b_origin b) = k /\ length (b_dim b) = k /\
    forall i, (i < k)%nat -> offset_axis t r sim i = Some (axis i (b_origin b), axis i (b_dim b)).
Proof.
  induction k as [|k IH]; intros H; cbn [offset_axes].
  - eexists. split; [reflexivity|]. split; [reflexivity|]. split; [reflexivity|]. intros i Hi. lia.
  - destruct IH as (b & E & L1 & L2 & Hb); [intros; apply H; lia|]. rewrite E. cbn [obind].
    destruct (H k ltac:(lia)) as ([o n] & Ek). rewrite Ek. cbn [obind]. eexists. split; [reflexivity|]. cbn [b_origin b_dim length].
    split; [lia|]. split; [lia|]. intros i Hi. rewrite !axis_cons, L1, L2. destruct (Nat.eqb_spec i k) as [->|Hn]; [exact Ek|].
    rewrite (proj2 (Nat.ltb_lt _ _)) by lia. apply Hb. lia.
Qed.

Lemma in_grid_pos dim : forall l, inside dim l dim -> Forall (fun n => 0 < n) l.
Proof. induction dim as [|n dim IH]; intros [|m l]; cbn [inside]; try tauto; constructor; [lia|]. apply IH. tauto. Qed.

Lemma axis_pos l : Forall (fun n => 0 < n) l <-> forall i, (i < length l)%nat -> 0 < axis i l.
Proof.
  split.
  - intros H i Hi. rewrite axis_nth by lia. rewrite Forall_forall in H. apply H. apply nth_In. lia.
  - intros H. apply Forall_forall. intros x Hx. destruct (In_nth l x 0 Hx) as (j & Hj & <-). rewrite nth_axis by lia. apply H. lia.
Qed.

Lemma prod_le_removelast l : Forall (fun n => 0 < n) l -> prod (removelast l) <= prod l.
Proof.
  intros H. destruct l as [|x l]; [cbn; lia|]. destruct (exists_last (l := x :: l) ltac:(discriminate)) as (l' & y & E). rewrite E in *.
  rewrite removelast_last, prod_app1. apply Forall_app in H. destruct H as [H1 H2]. apply Forall_inv in H2. pose proof (prod_pos l' H1). nia.
Qed.

Lemma sorted_pair {A} (R : A -> A -> Prop) l : forall a b, StronglySorted R l -> In a l -> In b l -> a = b \/ R a b \/ R b a.
Proof.
  induction l as [|x l IH]; intros a b Hs Ha Hb; [destruct Ha|]. inversion Hs as [|? ? Hs' Hf]; subst. rewrite Forall_forall in Hf.
  destruct Ha as [->|Ha], Hb as [->|Hb]; auto.
Qed.

Lemma widest_spec ss : forall w, let v := fold_left (fun w s => if streak_length s >? streak_length w then s else w) ss w in
  (v = w \/ In v ss) /\ streak_length w <= streak_length v /\ forall s, In s ss -> streak_length s <= streak_length v.
Proof.
  induction ss as [|s ss IH]; intros w; cbn [fold_left]; cbv zeta.
  - split; [now left|]. split; [lia|]. intros s [].
  - specialize (IH (if streak_length s >? streak_length w then s else w)). cbv zeta in IH. destruct IH as (H1 & H2 & H3).
    set (v := fold_left _ _ _) in *. destruct (Z.gtb_spec (streak_length s) (streak_length w)).
    + split; [destruct H1 as [H1|H1]; right; [left; congruence|now right]|]. split; [lia|]. intros s' [<-|Hs']; [exact H2|now apply H3].
    + split; [destruct H1 as [H1|H1]; [now left|right; now right]|]. split; [lia|]. intros s' [<-|Hs']; [lia|now apply H3].
Qed.

Section Node.
Context (d : nat) (t : topology) (sim : box) (r : indices) (HN : node_region d t sim r).

Definition bb_facts (bb : box) : Prop :=
  bounding_box r = Some bb /\ length (b_origin bb) = S d /\ length (b_dim bb) = S d /\
  (forall c, inr d r c -> in_box bb c) /\
  forall i, (i < S d)%nat -> 0 < axis i (b_dim bb) /\
    axis i (b_origin sim) <= axis i (b_origin bb) /\
    axis i (b_origin bb) + axis i (b_dim bb) <= axis i (b_origin sim) + axis i (b_dim sim) /\
    (exists c, inr d r c /\ axis i c = axis i (b_origin bb)) /\
    (exists c, inr d r c /\ axis i c = axis i (b_origin bb) + axis i (b_dim bb) - 1).

(** A region's cells, and which slices they occupy. *)
Lemma slice_dec i x : (exists c, inr d r c /\ axis i c = x) \/ (forall c, inr d r c -> axis i c <> x).
Proof using HN.
  destruct HN as (_ & _ & _ & Hv & _). destruct (region_coords_spec d r Hv) as (cs & _ & Hc).
  destruct (existsb (fun c => axis i c =? x) cs) eqn:E.
  - left. apply existsb_exists in E. destruct E as (c & H1 & H2). exists c. split; [now apply Hc|lia].
  - right. intros c Hi Hx. apply Hc in Hi. assert (existsb (fun c => axis i c =? x) cs = true) by (apply existsb_exists; exists c; split; [exact Hi|lia]). congruence.
Qed.

Lemma bounding_facts : exists bb, bb_facts bb.
Proof using HN.
  pose proof HN as (_ & Hls & Hln & Hv & (c0 & Hc0) & Hsim).
  destruct (geometry_valid d r Hv) as (bb & cs & E & _ & Hcs & (L1 & L2 & Hin & Hmin) & _). exists bb. unfold bb_facts, bounding_box. rewrite E.
  split; [reflexivity|]. split; [exact L1|]. split; [exact L2|]. split; [exact Hin|]. intros i Hi.
  pose proof (proj1 (inside_axis _ _ _) (Hin c0 Hc0)) as (P1 & P2 & P3).
  assert (Hpt : forall v, axis i (b_origin bb) <= v < axis i (b_origin bb) + axis i (b_dim bb) -> in_box bb (set_axis i v c0)).
  { intros v Hv'. apply inside_axis. rewrite set_axis_length by lia. split; [exact P1|]. split; [exact P2|]. intros j Hj. rewrite set_axis_axis by lia.
    destruct (Nat.eqb_spec j i) as [->|]; [exact Hv'|]. now apply P3. }
  pose proof (P3 i ltac:(lia)) as Hi0. split; [lia|].
  assert (HS : forall v, axis i (b_origin bb) <= v < axis i (b_origin bb) + axis i (b_dim bb) -> axis i (b_origin sim) <= v < axis i (b_origin sim) + axis i (b_dim sim)).
  { intros v Hv'. pose proof (Hmin sim Hls Hln Hsim _ (Hpt v Hv')) as H. apply inside_axis in H. destruct H as (_ & _ & H). specialize (H i ltac:(lia)).
    rewrite set_axis_axis, Nat.eqb_refl in H by lia. exact H. }
  split; [apply (HS (axis i (b_origin bb))); lia|]. split; [pose proof (HS (axis i (b_origin bb) + axis i (b_dim bb) - 1)); lia|].
  assert (HC : forall k w v, axis i (b_origin bb) <= v < axis i (b_origin bb) + axis i (b_dim bb) ->
    (forall c, inr d r c -> k <= axis i c < k + w) -> k <= v < k + w).
  { intros k w v Hv' Hk. pose proof (Hmin (mkBox (set_axis i k (b_origin bb)) (set_axis i w (b_dim bb)))) as H. cbn [b_origin b_dim] in H.
    rewrite !set_axis_length in H by lia. specialize (H L1 L2).
    assert (HQ : forall c, length c = S d /\ rin r c -> in_box (mkBox (set_axis i k (b_origin bb)) (set_axis i w (b_dim bb))) c).
    { intros c Hc. apply inside_axis. cbn [b_origin b_dim]. rewrite !set_axis_length by lia. pose proof (proj1 (inside_axis _ _ _) (Hin c Hc)) as (Q1 & Q2 & Q3).
      split; [exact Q1|]. split; [exact Q2|]. intros j Hj. rewrite !set_axis_axis by lia. destruct (Nat.eqb_spec j i) as [->|]; [now apply Hk|now apply Q3]. }
    specialize (H HQ _ (Hpt v Hv')). apply inside_axis in H. destruct H as (_ & _ & H). cbn [b_origin b_dim] in H. rewrite set_axis_length in H by lia.
    specialize (H i ltac:(lia)). rewrite !set_axis_axis, !Nat.eqb_refl in H by lia. exact H. }
  assert (HA : forall c, inr d r c -> axis i (b_origin bb) <= axis i c < axis i (b_origin bb) + axis i (b_dim bb)).
  { intros c Hc. pose proof (proj1 (inside_axis _ _ _) (Hin c Hc)) as (_ & _ & Q3). apply Q3. lia. }
  split.
  - destruct (slice_dec i (axis i (b_origin bb))) as [H|H]; [exact H|exfalso].
    pose proof (HC (axis i (b_origin bb) + 1) (axis i (b_dim bb) - 1) (axis i (b_origin bb)) ltac:(lia)) as H1.
    assert (forall c, inr d r c -> axis i (b_origin bb) + 1 <= axis i c < axis i (b_origin bb) + 1 + (axis i (b_dim bb) - 1)); [|specialize (H1 H0); lia].
    intros c Hc. specialize (H c Hc). specialize (HA c Hc). lia.
  - destruct (slice_dec i (axis i (b_origin bb) + axis i (b_dim bb) - 1)) as [H|H]; [exact H|exfalso].
    pose proof (HC (axis i (b_origin bb)) (axis i (b_dim bb) - 1) (axis i (b_origin bb) + axis i (b_dim bb) - 1) ltac:(lia)) as H1.
    assert (forall c, inr d r c -> axis i (b_origin bb) <= axis i c < axis i (b_origin bb) + (axis i (b_dim bb) - 1)); [|specialize (H1 H0); lia].
    intros c Hc. specialize (H c Hc). specialize (HA c Hc). lia.
Qed.

(** ** Gaps *)

Lemma cut_region bb i x : bb_facts bb -> (i < S d)%nat ->
  exists cut both, reg_insert_box (Z.to_nat (prod (b_dim (cut_box bb i x)))) (reg_empty (length r)) (cut_box bb i x) = Some cut /\
    reg_isect r cut = Some both /\ (reg_is_empty both = true <-> forall c, inr d r c -> axis i c <> x).
Proof using HN.
  intros (_ & L1 & L2 & Hin & Hbb) Hi. pose proof HN as (_ & _ & _ & Hv & _).
  set (cb := cut_box bb i x). assert (M1 : length (b_origin cb) = S d) by (cbn; rewrite set_axis_length; lia).
  assert (M2 : length (b_dim cb) = S d) by (cbn; rewrite set_axis_length; lia).
  assert (Hpos : Forall (fun n => 0 < n) (b_dim cb)).
  { apply axis_pos. intros j Hj. cbn [cb cut_box b_dim]. rewrite set_axis_axis by lia. destruct (Nat.eqb j i); [lia|]. apply Hbb. lia. }
  assert (Hrr : rows_regular cb).
  { unfold rows_regular. destruct (b_dim cb) as [|m [|m2 ms]] eqn:Ed; [discriminate M2|exact Logic.I|]. inversion Hpos as [|? ? Hm Hms]; subst. split; [lia|].
    apply Forall_forall. intros y Hy. rewrite Forall_forall in Hms. apply Hms. rewrite (app_removelast_last 0 (l := m2 :: ms)) by discriminate.
    apply in_or_app. now left. }
  destruct (regular_streakable (S d) cb M1 M2 Hrr) as [H4 H5]. rewrite (valid_length d r Hv).
  destruct (insert_box_valid d (reg_empty (S d)) cb (Z.to_nat (prod (b_dim cb))) (rvalid_empty d) M1 M2 H4) as (cut & E1 & V & Hr).
  { pose proof (prod_le_removelast _ Hpos). lia. }
  destruct (isect_inr d r cut Hv V) as (both & E2 & V2 & Hb). exists cut, both. split; [exact E1|]. split; [exact E2|].
  rewrite (empty_inr d both V2). split.
  - intros H c Hc Hx. apply (H c). apply Hb. split; [exact Hc|]. pose proof Hc as [Hlc _]. split; [exact Hlc|]. apply Hr; [exact Hlc|]. right.
    pose proof (proj1 (inside_axis _ _ _) (Hin c Hc)) as (Q1 & Q2 & Q3). apply inside_axis. split; [lia|]. split; [lia|].
    intros j Hj. cbn [cb cut_box b_origin b_dim]. rewrite !set_axis_axis by lia. destruct (Nat.eqb_spec j i) as [->|]; [lia|]. apply Q3. lia.
  - intros H c Hc. apply Hb in Hc. destruct Hc as [Hc [Hlc Hcut]]. apply (H c Hc). apply Hr in Hcut; [|exact Hlc].
    destruct Hcut as [Hcut|Hcut]; [now apply (rin_empty d c Hlc) in Hcut|]. apply inside_axis in Hcut. destruct Hcut as (_ & _ & Q). specialize (Q i ltac:(lia)).
    cbn [cb cut_box b_origin b_dim] in Q. rewrite !set_axis_axis, Nat.eqb_refl in Q by lia. lia.
Qed.

Lemma find_gaps_spec bb i : bb_facts bb -> (i < S d)%nat -> forall n x gaps, rvalid 0 gaps ->
  exists gaps', find_gaps r bb i n x gaps = Some gaps' /\ rvalid 0 gaps' /\
    forall y, rin gaps' [y] <-> rin gaps [y] \/ (x <= y < x + Z.of_nat n /\ forall c, inr d r c -> axis i c <> y).
Proof using HN.
  intros Hbb Hi. induction n as [|n IH]; intros x gaps Hg.
  - exists gaps. split; [reflexivity|]. split; [exact Hg|]. intros y. split; [tauto|]. intros [H|[H _]]; [exact H|lia].
  - cbn [find_gaps]. cbv zeta. destruct (cut_region bb i x Hbb Hi) as (cut & both & E1 & E2 & He). rewrite E1. cbn [obind]. rewrite E2. cbn [obind].
    destruct (reg_is_empty both) eqn:Eb.
    + destruct (insert_valid 0 gaps (mkStreak [] x (x + 1)) Hg eq_refl) as [V Hm]. destruct (IH (x + 1) _ V) as (g' & E & V' & H'). exists g'. split; [exact E|]. split; [exact V'|].
      intros y. rewrite H', Hm by reflexivity. assert (Hy : in_streak (mkStreak [] x (x + 1)) [y] <-> y = x).
      { unfold in_streak. cbn. split; [intros (z & H1 & H2)|intros ->]. injection H1 as ->. lia. exists x. split; [reflexivity|lia]. }
      rewrite Hy. pose proof (proj1 He eq_refl) as Hx. split.
      * intros [[H|H]|[H1 H2]]; [tauto| |right; split; [lia|exact H2]]. right. subst y. split; [lia|exact Hx].
      * intros [H|[H1 H2]]; [tauto|]. destruct (Z.eq_dec y x); [tauto|]. right. split; [lia|exact H2].
    + destruct (IH (x + 1) _ Hg) as (g' & E & V' & H'). exists g'. split; [exact E|]. split; [exact V'|]. intros y. rewrite H'. split.
      * intros [H|[H1 H2]]; [tauto|]. right. split; [lia|exact H2].
      * intros [H|[H1 H2]]; [tauto|]. destruct (Z.eq_dec y x) as [->|]; [|right; split; [lia|exact H2]]. exfalso. pose proof (proj2 He H2). discriminate.
Qed.

(** ** One axis *)

(** What is found for an axis: an interval within the simulation area. Slices
    to its left are moved by one period; the interval doesn't begin in the
    middle of adjacent slices. *)
Definition axis_facts (i : nat) (o n : Z) : Prop :=
  let so := axis i (b_origin sim) in let total := axis i (b_dim sim) in
  0 < n <= total /\ so <= o < so + total /\
  (forall c, inr d r c -> axis i c <> o - 1) /\
  (wraps_axis t i = false -> o + n <= so + total /\ forall c, inr d r c -> o <= axis i c < o + n) /\
  (forall c, inr d r c -> o <= (if axis i c <? o then axis i c + total else axis i c) < o + n) /\
  forall a w, covers d r t (b_dim sim) i a w -> n <= w.

(** Any interval which covers all slices is as wide as the bounding box, or
    leaves out a gap within the bounding box. *)
Lemma cover_width o n total i a w : 0 < n <= total ->
  (forall c, inr d r c -> o <= axis i c < o + n) -> (exists c, inr d r c /\ axis i c = o) -> (exists c, inr d r c /\ axis i c = o + n - 1) ->
  (forall c, inr d r c -> exists y, (exists k, y = axis i c + k * total) /\ a <= y < a + w) ->
  n <= w \/ exists p, o < p /\ p + (total - w) < o + n /\ forall c, inr d r c -> ~ (p <= axis i c < p + (total - w)).
Proof using.
  intros Hn Hin (c1 & Hc1 & E1) (c2 & Hc2 & E2) Hcov. destruct (Z.le_gt_cases n w) as [|Hw]; [now left|]. right.
  assert (Hw0 : 0 < w) by (destruct (Hcov c1 Hc1) as (y & _ & Hy); lia).
  assert (Hfree : forall c k, inr d r c -> ~ (a + w <= axis i c + k * total < a + total)).
  { intros c k Hc Hk. destruct (Hcov c Hc) as (y & (k' & ->) & Hy). assert (k = k' \/ k <= k' - 1 \/ k' + 1 <= k) by lia. nia. }
  pose proof (Z.mod_pos_bound (a + w - o) total ltac:(lia)) as Hm. pose proof (Z.div_mod (a + w - o) total ltac:(lia)) as Hd.
  set (q := (a + w - o) / total) in *. set (m := (a + w - o) mod total) in *. clearbody q m. exists (o + m).
  assert (Hfree' : forall c k, inr d r c -> ~ (o + m <= axis i c + k * total < o + m + (total - w))).
  { intros c k Hc Hk. apply (Hfree c (k + q) Hc). nia. }
  assert (m <> 0) by (intros ->; apply (Hfree' c1 0 Hc1); lia).
  assert (m + (total - w) <= total) by (destruct (Z.le_gt_cases (m + (total - w)) total); [lia|]; exfalso; apply (Hfree' c1 1 Hc1); lia).
  split; [lia|]. split; [|intros c Hc Hk; apply (Hfree' c 0 Hc); lia].
  destruct (Z.lt_ge_cases (o + m + (total - w)) (o + n)); [lia|]. exfalso.
  destruct (Z.le_gt_cases (o + m) (o + n - 1)); [apply (Hfree' c2 0 Hc2); lia|lia].
Qed.

Lemma offset_axis_spec i : (i < S d)%nat -> exists o n, offset_axis t r sim i = Some (o, n) /\ axis_facts i o n.
Proof using HN.
  intros Hi. destruct bounding_facts as (bb & Hbb). pose proof Hbb as (Eb & L1 & L2 & Hin & Hax).
  destruct (Hax i Hi) as (Hn & Hs1 & Hs2 & Hlo & Hhi). unfold offset_axis. rewrite Eb. cbn [obind]. cbv zeta.
  set (o := axis i (b_origin bb)) in *. set (n := axis i (b_dim bb)) in *. set (total := axis i (b_dim sim)) in *. set (so := axis i (b_origin sim)) in *.
  assert (HA : forall c, inr d r c -> o <= axis i c < o + n).
  { intros c Hc. pose proof (proj1 (inside_axis _ _ _) (Hin c Hc)) as (_ & _ & Q). apply Q. lia. }
  clear Hin Hax. clearbody o n.
  assert (HB : (forall a w, covers d r t (b_dim sim) i a w -> n <= w) -> axis_facts i o n).
  { intros Hcov. unfold axis_facts. fold total so. cbv zeta. split; [lia|]. split; [lia|]. split; [intros c Hc; specialize (HA c Hc); lia|].
    split; [intros _; split; [lia|exact HA]|]. split; [|exact Hcov]. intros c Hc. specialize (HA c Hc). destruct (Z.ltb_spec (axis i c) o); lia. }
  destruct (wraps_axis t i) eqn:Ew; cbn [negb orb].
  2:{ exists o, n. split; [reflexivity|]. apply HB. intros a w Hc. unfold covers in Hc. rewrite Ew in Hc. cbn [same_pos] in Hc.
      destruct Hlo as (c1 & Hc1 & E1). destruct Hhi as (c2 & Hc2 & E2). destruct (Hc c1 Hc1) as (y1 & -> & H1). destruct (Hc c2 Hc2) as (y2 & -> & H2). lia. }
  assert (HW : forall a w, covers d r t (b_dim sim) i a w ->
    n <= w \/ exists p, o < p /\ p + (total - w) < o + n /\ forall c, inr d r c -> ~ (p <= axis i c < p + (total - w))).
  { intros a w Hc. unfold covers in Hc. rewrite Ew in Hc. cbn [same_pos] in Hc. fold total in Hc. apply (cover_width o n total i a w); auto. lia. }
  destruct (Z.ltb_spec n (Z.quot total 2)) as [Hq|Hq].
  - exists o, n. split; [reflexivity|]. apply HB. intros a w Hc. destruct (HW a w Hc) as [H|(p & H1 & H2 & _)]; [exact H|].
    rewrite Z.quot_div_nonneg in Hq by lia. pose proof (Z.mul_div_le total 2). lia.
  - clear Hq. destruct (find_gaps_spec bb i Hbb Hi (Z.to_nat n) o (reg_empty 1) (rvalid_empty 0)) as (gaps & Eg & Vg & Hg). rewrite Eg. cbn [obind].
    destruct (streaks_valid 0 gaps Vg) as (ss & [Hsort Hok] & Hss & Ess & _). rewrite Ess. cbn [obind].
    assert (HG : forall y, in_streaks ss [y] <-> o <= y < o + n /\ forall c, inr d r c -> axis i c <> y).
    { intros y. rewrite <- Hss by reflexivity. rewrite Hg. pose proof (rin_empty 0 [y] eq_refl). rewrite Z2Nat.id by lia. tauto. }
    assert (HG' : forall s y, In s ss -> s_x s <= y < s_e s -> o <= y < o + n /\ forall c, inr d r c -> axis i c <> y).
    { intros s y Hs' Hy. apply HG. exists s. split; [exact Hs'|]. exists y. split; [|exact Hy]. rewrite Forall_forall in Hok. destruct (Hok s Hs') as [Hp _].
      destruct (s_pre s); [reflexivity|discriminate]. }
    pose proof (widest_spec ss (mkStreak [] 0 0)) as (H1 & H2 & H3). fold (widest ss) in H1, H2, H3. set (g := widest ss) in *. change (streak_length (mkStreak [] 0 0)) with 0 in H2.
    (* gaps are not longer than the widest one *)
    assert (Hgap : forall p m, o <= p -> p + m <= o + n -> 0 < m -> (forall c, inr d r c -> ~ (p <= axis i c < p + m)) -> m <= streak_length g).
    { intros p m Hp Hpm Hm Hfree. assert (Hone : exists s, In s ss /\ s_x s <= p /\ forall k, 0 <= k <= m -> p + k <= s_e s).
      { destruct (proj2 (HG p)) as (s & Hs' & x & Ex & Hx); [split; [lia|intros c Hc Hy; apply (Hfree c Hc); lia]|].
        assert (s_pre s = []) as Ep by (rewrite Forall_forall in Hok; destruct (Hok s Hs') as [Hp' _]; destruct (s_pre s); [reflexivity|discriminate]).
        rewrite Ep in Ex. injection Ex as <-. exists s. split; [exact Hs'|]. split; [lia|]. intros k Hk.
        assert (Hind : forall j : nat, Z.of_nat j <= m -> p + Z.of_nat j <= s_e s).
        { induction j as [|j IHj]; intros Hj; [lia|]. specialize (IHj ltac:(lia)). destruct (Z.eq_dec (p + Z.of_nat j) (s_e s)) as [Ee|]; [exfalso|lia].
          destruct (proj2 (HG (p + Z.of_nat j))) as (s' & Hs'' & x' & Ex' & Hx'); [split; [lia|intros c Hc Hy; apply (Hfree c Hc); lia]|].
          assert (s_pre s' = []) as Ep' by (rewrite Forall_forall in Hok; destruct (Hok s' Hs'') as [Hp' _]; destruct (s_pre s'); [reflexivity|discriminate]).
          rewrite Ep' in Ex'. injection Ex' as <-.
          destruct (sorted_pair _ ss s s' Hsort Hs' Hs'') as [Es|[Hb|Hb]].
          - subst s'. lia.
          - destruct Hb as [Hb|[_ Hb]]; [rewrite Ep, Ep' in Hb; destruct Hb|lia].
          - destruct Hb as [Hb|[_ Hb]]; [rewrite Ep, Ep' in Hb; destruct Hb|]. lia. }
        specialize (Hind (Z.to_nat k)). lia. }
      destruct Hone as (s & Hs' & Hx & Hk). specialize (Hk m ltac:(lia)). specialize (H3 s Hs'). unfold streak_length in *. lia. }
    destruct (Z.ltb_spec (total - streak_length g) n) as [Hw|Hw].
    + exists (s_e g), (total - streak_length g). split; [reflexivity|].
      assert (Hgin : In g ss) by (destruct H1 as [H1|H1]; [rewrite H1 in Hw; unfold streak_length in Hw; cbn in Hw; lia|exact H1]).
      assert (Hgl : 0 < streak_length g) by lia. unfold streak_length in *.
      pose proof (HG' g (s_x g) Hgin ltac:(lia)) as [Hg1 _]. pose proof (HG' g (s_e g - 1) Hgin ltac:(lia)) as [Hg2 Hg3].
      assert (Hg4 : s_e g < o + n) by (destruct (Z.eq_dec (s_e g) (o + n)) as [Ee|]; [|lia]; destruct Hhi as (c2 & Hc2 & E2); exfalso; apply (Hg3 c2 Hc2); lia).
      unfold axis_facts. fold total so. cbv zeta. split; [lia|]. split; [lia|]. split; [exact Hg3|]. split; [intros Hx; rewrite Ew in Hx; discriminate|]. split.
      * intros c Hc. specialize (HA c Hc). destruct (Z.ltb_spec (axis i c) (s_e g)) as [Hc1|Hc1]; [|lia].
        destruct (Z.lt_ge_cases (axis i c) (s_x g)); [lia|]. exfalso. apply (proj2 (HG' g (axis i c) Hgin ltac:(lia)) c Hc). reflexivity.
      * intros a w Hc. destruct (HW a w Hc) as [H|(p & K1 & K2 & K3)]; [lia|]. destruct (Z.le_gt_cases (total - w) 0); [lia|].
        specialize (Hgap p (total - w) ltac:(lia) ltac:(lia) ltac:(lia) K3). lia.
    + exists o, n. split; [reflexivity|]. apply HB. intros a w Hc. destruct (HW a w Hc) as [H|(p & K1 & K2 & K3)]; [lia|]. destruct (Z.le_gt_cases (total - w) 0); [lia|].
      specialize (Hgap p (total - w) ltac:(lia) ltac:(lia) ltac:(lia) K3). lia.
Qed.
End Node.
