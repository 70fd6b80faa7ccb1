(** C15 and C59: HIndexingPartition. *)
From Verif Require Import Base ListFacts RegionSpec RegionModel RegionRep RegionIterModel
  CoordModel CoordSpec RegionOpsModel RegionOps CoordFacts RegionHistory RegionHist RegionReach PartitionSpec PartitionModel
  PartitionFacts StripingFacts CheckerFacts BisectionFacts SfcModel SfcFacts ZcurveFacts HilbertFacts HIndexingModel HIndexingFacts HIndexingIter.

(** The complete traversal. *)
Definition hi_order (origin dims : coord) : list coord :=
  htravel (mkTri 0 2 dims origin) ++ htravel (mkTri (-1) 1 dims (zadd origin dims)).

Lemma locate_skip mx my cache f o t t' stk rem n : tri_length (S f) t = Some n -> n <= rem ->
  hi_locate mx my cache (S f) o (t :: t' :: stk) rem = hi_locate mx my cache f o (t' :: stk) (rem - n).
Proof. intros E H. cbn [hi_locate]. rewrite E. cbn [obind]. now replace (n <=? rem) with true by lia. Qed.

Lemma locate_none mx my cache f o t rem n : tri_length (S f) t = Some n -> n <= rem ->
  hi_locate mx my cache (S f) o [t] rem = Some (HEnd o).
Proof. intros E H. cbn [hi_locate]. rewrite E. cbn [obind]. now replace (n <=? rem) with true by lia. Qed.

Section At.
Variables mx my : Z.
Variable cache : coord -> nat -> list coord.
Hypothesis cache_ok : forall t, tgood t -> has_trivial (t_dim t) = false -> hi_cached mx my (t_dim t) = true ->
  map (zadd (t_org t)) (cache (t_dim t) (t_type t)) = htravel t.
Variable aspect : tri -> Prop.
Hypothesis asp_nt : forall t, aspect t -> has_trivial (t_dim t) = false.
Hypothesis asp_sub : forall t i, tgood t -> aspect t -> hi_cached mx my (t_dim t) = false -> (i < 4)%nat -> aspect (tri_sub t i).

Lemma order_tiles oy ox y x : 1 <= y -> 1 <= x -> tiles (hi_order [oy; ox] [y; x]) oy ox y x.
Proof.
  intros Hy Hx. destruct (pairs_tile oy ox y x Hy Hx) as [H _]. unfold pair_a in H. unfold hi_order. cbn [zadd].
  rewrite (htravel_cnt (-1) 0). exact H.
Qed.

Lemma at_st oy ox y x F k : 1 <= y -> 1 <= x -> 5 * (y * x) + 2 <= Z.of_nat F -> 0 <= k ->
  k = 0 \/ y * x <= k \/ (forall c, aspect (mkTri c 2 [y; x] [oy; ox]) /\ aspect (mkTri c 1 [y; x] [oy + y; ox + x])) ->
  exists it, hi_at mx my cache F [oy; ox] [y; x] k = Some it /\
    st mx my [oy; ox] (y * x) F it (skipn (Z.to_nat k) (hi_order [oy; ox] [y; x])).
Proof.
  intros Hy Hx HF Hk Hcond. set (V := y * x) in *. assert (HV : 1 <= V) by (unfold V; nia).
  set (t2 := mkTri 0 2 [y; x] [oy; ox]). set (t1 := mkTri (-1) 1 [y; x] [oy + y; ox + x]).
  assert (G2 : tgood t2) by (do 6 eexists; split; [reflexivity|]; lia).
  assert (G1 : tgood t1) by (do 6 eexists; split; [reflexivity|]; lia).
  assert (V2 : tvol t2 = V) by (unfold tvol, V; cbn; ring). assert (V1 : tvol t1 = V) by (unfold tvol, V; cbn; ring).
  pose proof (leaves_bound t2 G2) as L2. pose proof (leaves_bound t1 G1) as L1.
  destruct (order_tiles oy ox y x Hy Hx) as (HN & HI & HL). unfold hi_order in *. cbn [zadd] in *. fold t2 t1 in HN, HI, HL |- *.
  rewrite app_length in HL.
  assert (Hf1 : frame_ok mx my t1) by (split; [exact G1|left; reflexivity]).
  assert (Hfr : frames [t1] = htravel t1) by (unfold frames, frame_rest; cbn; apply app_nil_r).
  assert (Hfl : frames_lv [t1] = leaves t1) by (unfold frames_lv, frame_lv; cbn; lia).
  unfold hi_at. cbn [zadd]. fold t2 t1. destruct F as [|[|F]]; [lia|lia|]. set (F2 := S (S F)) in *.
  destruct (Z_lt_le_dec k (Z.of_nat (length (htravel t2)))) as [Lk|Lk].
  - destruct (locate_spec mx my cache cache_ok [oy; ox] V F2 aspect asp_nt asp_sub F2 t2 k [t1] G2) as (c & l & stk & E & Hl & Hs & Hv & Hr & Hlv); auto; try lia.
    + constructor; auto. lia.
    + destruct Hcond as [H|[H|H]]; [now left|lia|right; apply H].
    + rewrite E. cbn [obind].
      destruct (next_raw mx my cache cache_ok [oy; ox] V F2 ltac:(lia) F2 c l stk Hl Hs Hv) as (it & En & Hst); [lia|lia|].
      exists it. split; [exact En|]. rewrite skipn_app. replace (Z.to_nat k - length (htravel t2))%nat with 0%nat by lia.
      cbn [skipn]. rewrite <- Hfr, <- Hr. exact Hst.
  - unfold F2 at 1. rewrite (locate_skip _ _ _ _ _ _ _ _ _ _ (tri_length_spec (S (S F)) t2 G2 ltac:(lia))) by lia.
    destruct (Z_lt_le_dec k V) as [LV|LV].
    + destruct (locate_spec mx my cache cache_ok [oy; ox] V F2 aspect asp_nt asp_sub (S F) t1 (k - Z.of_nat (length (htravel t2))) [] G1)
        as (c & l & stk & E & Hl & Hs & Hv & Hr & Hlv); auto; try lia.
      { destruct Hcond as [->|[H|H]]; [left; lia|lia|right; apply H]. }
      rewrite E. cbn [obind].
      destruct (next_raw mx my cache cache_ok [oy; ox] V F2 ltac:(lia) F2 c l stk Hl Hs Hv) as (it & En & Hst); [change (frames_lv []) with 0%nat in Hlv; lia|lia|].
      exists it. split; [exact En|]. rewrite skipn_app, skipn_all2 by lia. cbn [app].
      rewrite Hr in Hst. change (frames []) with (@nil coord) in Hst. rewrite app_nil_r in Hst.
      replace (Z.to_nat k - length (htravel t2))%nat with (Z.to_nat (k - Z.of_nat (length (htravel t2)))) by lia. exact Hst.
    + rewrite (locate_none _ _ _ _ _ _ _ _ (tri_length_spec (S F) t1 G1 ltac:(lia))) by lia. cbn [obind].
      exists (HEnd [oy; ox]). split; [reflexivity|]. rewrite skipn_all2 by (rewrite app_length; lia). reflexivity.
Qed.
End At.

(** ** The cache *)

Definition hentry_ok (cache : coord -> nat -> list coord) (y x : Z) (f : nat) : Prop :=
  cache [y; x] f = htravel (mkTri 0 f [y; x] [0; 0]).

Lemma hi_with_cache_ok Y cache : Y <= 17 -> (forall y x f, below Y y x f -> hentry_ok cache y x f) ->
  forall t, tgood t -> has_trivial (t_dim t) = false -> hi_cached Y Y (t_dim t) = true ->
  map (zadd (t_org t)) (cache (t_dim t) (t_type t)) = htravel t.
Proof.
  intros HY Hc t (k & f & y & x & oy & ox & -> & Hy & Hx & Hf) Ht Hcd. cbn [t_dim t_org t_type] in *.
  apply h_nontriv in Ht; [|lia|lia]. cbn [hi_cached hilbert_cached] in Hcd. unfold hi_cached, hilbert_cached in Hcd.
  rewrite (Hc y x f) by (unfold below; lia). rewrite <- htravel_shift. unfold tshift. cbn [t_cnt t_type t_dim t_org zadd].
  rewrite !Z.add_0_r. apply htravel_cnt.
Qed.

Lemma triangle_nodup f y x oy ox : 1 <= y -> 1 <= x -> (f < 4)%nat -> NoDup (htravel (mkTri 0 f [y; x] [oy; ox])).
Proof.
  intros Hy Hx Hf. assert (A : forall l1 l2 : list coord, NoDup (l1 ++ l2) -> NoDup l1 /\ NoDup l2).
  { induction l1 as [|a l1 IH]; cbn; intros l2 H; [split; auto; constructor|]. inversion H; subst. destruct (IH _ H3). split; auto.
    constructor; auto. intros Hin. apply H2. apply in_or_app. now left. }
  unfold htravel. four f.
  - destruct (pairs_tile (oy - y) ox y x Hy Hx) as [_ (H & _)]. unfold pair_b in H.
    replace (oy - y + y) with oy in H by lia. now apply A in H.
  - destruct (pairs_tile (oy - y) (ox - x) y x Hy Hx) as [(H & _) _]. unfold pair_a in H.
    replace (oy - y + y) with oy in H by lia. replace (ox - x + x) with ox in H by lia. now apply A in H.
  - destruct (pairs_tile oy ox y x Hy Hx) as [(H & _) _]. now apply A in H.
  - destruct (pairs_tile oy (ox - x) y x Hy Hx) as [_ (H & _)]. unfold pair_b in H.
    replace (ox - x + x) with ox in H by lia. now apply A in H.
Qed.

Lemma triangle_len t : tgood t -> Z.of_nat (length (htravel t)) <= tvol t.
Proof.
  intros (k & f & y & x & oy & ox & -> & Hy & Hx & Hf). rewrite (htravel_cnt k 0). unfold tvol. cbn [t_dim prod]. unfold htravel. four f.
  - destruct (pairs_tile (oy - y) ox y x Hy Hx) as [_ (_ & _ & H)]. unfold pair_b in H. rewrite app_length in H.
    replace (oy - y + y) with oy in H by lia. lia.
  - destruct (pairs_tile (oy - y) (ox - x) y x Hy Hx) as [(_ & _ & H) _]. unfold pair_a in H. rewrite app_length in H.
    replace (oy - y + y) with oy in H by lia. replace (ox - x + x) with ox in H by lia. lia.
  - destruct (pairs_tile oy ox y x Hy Hx) as [(_ & _ & H) _]. unfold pair_a in H. rewrite app_length in H. lia.
  - destruct (pairs_tile oy (ox - x) y x Hy Hx) as [_ (_ & _ & H)]. unfold pair_b in H. rewrite app_length in H.
    replace (ox - x + x) with ox in H by lia. lia.
Qed.

Lemma hi_fill_entry_ok fuel y x f cache (S : Z -> Z -> nat -> Prop) :
  2 <= y <= 16 -> 2 <= x <= 16 -> (f < 4)%nat -> 1300 <= Z.of_nat fuel ->
  (forall y' x' f', below y y' x' f' -> S y' x' f') -> (forall y' x' f', S y' x' f' -> hentry_ok cache y' x' f') ->
  exists cache', hi_fill_entry fuel y cache [y; x] f = Some cache' /\
    forall y' x' f', S y' x' f' \/ (y' = y /\ x' = x /\ f' = f) -> hentry_ok cache' y' x' f'.
Proof.
  intros Hy Hx Hf Hfu HS Hc. unfold hi_fill_entry.
  assert (Hca := hi_with_cache_ok y cache ltac:(lia) (fun y' x' f' H => Hc y' x' f' (HS y' x' f' H))).
  set (t := mkTri 0 f [y; x] [0; 0]).
  assert (Hg : tgood t) by (do 6 eexists; split; [reflexivity|]; lia).
  assert (Hv : tvol t = y * x) by (unfold tvol; cbn; ring). assert (y * x <= 256) by nia.
  pose proof (leaves_bound t Hg).
  destruct (dig_down0 y y cache Hca (y * x) fuel t [0; 0] [] Hg eq_refl) as (c & l & stk & E & Hl & Hs & Hsv & Hr & Hlv); auto; try lia.
  unfold hi_triangle. fold t. rewrite E. cbn [obind]. change (frames []) with (@nil coord) in Hr. change (frames_lv []) with 0%nat in Hlv. rewrite app_nil_r in Hr.
  destruct (next_raw y y cache Hca [0; 0] (y * x) fuel ltac:(nia) fuel c l stk Hl Hs Hsv) as (it & En & Hst); [lia|lia|].
  rewrite En. cbn [obind]. rewrite Hr in Hst.
  rewrite (range_st y y cache Hca [0; 0] (y * x) fuel ltac:(nia) (htravel t) [] it (HEnd [0; 0])); auto.
  - cbn [obind]. eexists. split; [reflexivity|]. intros y' x' f' H1. unfold hentry_ok, cache_set.
    destruct (coord_eqb [y'; x'] [y; x] && (f' =? f)%nat) eqn:Ec.
    + apply andb_prop in Ec. destruct Ec as [E1 E2]. apply coord_eqb_spec in E1. injection E1 as -> ->. apply Nat.eqb_eq in E2. subst f'. reflexivity.
    + destruct H1 as [H1|(-> & -> & ->)]; [now apply Hc|]. rewrite coord_eqb_refl, Nat.eqb_refl in Ec. discriminate.
  - rewrite app_nil_r. apply triangle_nodup; lia.
  - rewrite app_nil_r. exact Hst.
  - reflexivity.
  - pose proof (triangle_len t Hg). lia.
Qed.

Lemma hi_fill_types_ok fuel y x : 2 <= y <= 16 -> 2 <= x <= 16 -> 1300 <= Z.of_nat fuel ->
  forall types cache (S : Z -> Z -> nat -> Prop), Forall (fun f => (f < 4)%nat) types ->
  (forall y' x' f', below y y' x' f' -> S y' x' f') -> (forall y' x' f', S y' x' f' -> hentry_ok cache y' x' f') ->
  exists cache', hi_fill_types fuel y [y; x] types cache = Some cache' /\
    forall y' x' f', S y' x' f' \/ (y' = y /\ x' = x /\ In f' types) -> hentry_ok cache' y' x' f'.
Proof.
  intros Hy Hx Hfu. induction types as [|f fs IH]; intros cache S Hfs HS Hc; cbn [hi_fill_types].
  - exists cache. split; auto. intros y' x' f' [H|(_ & _ & [])]. auto.
  - apply Forall_cons_iff' in Hfs. destruct Hfs as [Hf Hfs].
    destruct (hi_fill_entry_ok fuel y x f cache S Hy Hx Hf Hfu HS Hc) as (c1 & E1 & H1). rewrite E1. cbn [obind].
    destruct (IH c1 (fun y' x' f' => S y' x' f' \/ (y' = y /\ x' = x /\ f' = f)) Hfs) as (c2 & E2 & H2); auto.
    exists c2. split; auto. intros y' x' f' [H|(-> & -> & [->|H])]; apply H2; auto.
Qed.

Lemma hi_fill_row_ok fuel y : 2 <= y <= 16 -> 1300 <= Z.of_nat fuel ->
  forall xs cache (S : Z -> Z -> nat -> Prop), Forall (fun x => 2 <= x <= 16) xs ->
  (forall y' x' f', below y y' x' f' -> S y' x' f') -> (forall y' x' f', S y' x' f' -> hentry_ok cache y' x' f') ->
  exists cache', hi_fill_row fuel y xs cache = Some cache' /\
    forall y' x' f', S y' x' f' \/ (y' = y /\ In x' xs /\ (f' < 4)%nat) -> hentry_ok cache' y' x' f'.
Proof.
  intros Hy Hfu. induction xs as [|x xs IH]; intros cache S Hxs HS Hc; cbn [hi_fill_row].
  - exists cache. split; auto. intros y' x' f' [H|(_ & [] & _)]. auto.
  - apply Forall_cons_iff' in Hxs. destruct Hxs as [Hx Hxs].
    destruct (hi_fill_types_ok fuel y x Hy Hx Hfu [0; 1; 2; 3]%nat cache S) as (c1 & E1 & H1); auto; [repeat constructor; lia|].
    rewrite E1. cbn [obind].
    destruct (IH c1 (fun y' x' f' => S y' x' f' \/ (y' = y /\ x' = x /\ In f' [0; 1; 2; 3]%nat)) Hxs) as (c2 & E2 & H2); auto.
    exists c2. split; auto. intros y' x' f' [H|(-> & [<-|H] & Hf)]; apply H2; auto.
    left. right. split; auto. split; auto. cbn. lia.
Qed.

Lemma hi_fill_rows_ok fuel xs : 1300 <= Z.of_nat fuel -> Forall (fun x => 2 <= x <= 16) xs -> (forall x, 2 <= x <= 16 -> In x xs) ->
  forall ys y cache, consecutive y ys -> 2 <= y -> y + Z.of_nat (length ys) <= 17 ->
  (forall y' x' f', below y y' x' f' -> hentry_ok cache y' x' f') ->
  exists cache', hi_fill_rows fuel xs ys cache = Some cache' /\
    forall y' x' f', below (y + Z.of_nat (length ys)) y' x' f' -> hentry_ok cache' y' x' f'.
Proof.
  intros Hfu Hxs Hall. induction ys as [|y1 ys IH]; intros y cache Hc Hy Hle Hcache; cbn [hi_fill_rows].
  - exists cache. cbn [length]. rewrite Z.add_0_r. split; auto.
  - destruct Hc as [-> Hc]. cbn [length] in *.
    destruct (hi_fill_row_ok fuel y ltac:(lia) Hfu xs cache (below y)) as (c1 & E1 & H1); auto. rewrite E1. cbn [obind].
    destruct (IH (y + 1) c1 Hc ltac:(lia) ltac:(lia)) as (c2 & E2 & H2).
    + intros y' x' f' (B1 & B2 & B3). apply H1. destruct (Z.eq_dec y' y) as [->|]; [right; auto|left; unfold below; lia].
    + exists c2. split; auto. intros y' x' f' H. apply H2. unfold below in *. lia.
Qed.

Lemma hi_fill_ok fuel : 1300 <= Z.of_nat fuel ->
  exists cache, hi_fill fuel = Some cache /\ forall y x f, below 17 y x f -> hentry_ok cache y x f.
Proof.
  intros Hfu. unfold hi_fill.
  destruct (hi_fill_rows_ok fuel [2; 3; 4; 5; 6; 7; 8; 9; 10; 11; 12; 13; 14; 15; 16] Hfu) with
    (ys := [2; 3; 4; 5; 6; 7; 8; 9; 10; 11; 12; 13; 14; 15; 16]) (y := 2) (cache := fun (_ : coord) (_ : nat) => @nil coord) as (cache & E & H).
  - repeat constructor; lia.
  - intros x Hx. cbn [In]. lia.
  - cbn. tauto.
  - lia.
  - cbn. lia.
  - intros y x f (B & _). lia.
  - exists cache. split; auto.
Qed.

(** ** Aspect ratio *)

(** Descendants of a triangle whose aspect ratio is at most 4. *)
Definition asp4 (t : tri) : Prop :=
  exists k f y x oy ox n X Y, t = mkTri k f [y; x] [oy; ox] /\ 2 <= y /\ 2 <= x /\ 0 <= n /\ (f < 4)%nat /\
  2 ^ n * (y - 1) < Y < 2 ^ n * (y + 1) /\ 2 ^ n * (x - 1) < X < 2 ^ n * (x + 1) /\ X <= 4 * Y /\ Y <= 4 * X.

Lemma asp4_nt t : asp4 t -> has_trivial (t_dim t) = false.
Proof.
  intros (k & f & y & x & oy & ox & n & X & Y & -> & Hy & Hx & _). cbn [t_dim]. unfold has_trivial. cbn [prod csum length].
  change (Z.of_nat 2) with 2. apply orb_false_intro; nia.
Qed.

Lemma half_bounds n y y' Y : 0 <= n -> 2 ^ n * (y - 1) < Y < 2 ^ n * (y + 1) -> y' = y / 2 \/ y' = y - y / 2 ->
  2 ^ (n + 1) * (y' - 1) < Y < 2 ^ (n + 1) * (y' + 1).
Proof.
  intros Hn H Hy. rewrite Z.pow_add_r by lia. change (2 ^ 1) with 2. assert (0 < 2 ^ n) by (apply Z.pow_pos_nonneg; lia).
  assert (y - 1 <= 2 * y' <= y + 1) by lia. nia.
Qed.

Lemma half_big n x y X Y y' : 0 <= n -> 2 ^ n * (x - 1) < X -> Y < 2 ^ n * (y + 1) -> X <= 4 * Y -> 17 <= x ->
  y' = y / 2 \/ y' = y - y / 2 -> 2 <= y'.
Proof.
  intros Hn HX HY H4 Hx Hy. assert (0 < 2 ^ n) by (apply Z.pow_pos_nonneg; lia). assert (4 < y + 1) by nia. lia.
Qed.

Lemma asp4_sub t i : tgood t -> asp4 t -> hi_cached 17 17 (t_dim t) = false -> (i < 4)%nat -> asp4 (tri_sub t i).
Proof.
  intros _ (k & f & y & x & oy & ox & n & X & Y & -> & Hy & Hx & Hn & Hf & HY & HX & H1 & H2) Hc Hi. cbn [t_dim] in Hc.
  unfold hi_cached, hilbert_cached in Hc.
  assert (G : forall dy dx f' oy' ox', (dy = y / 2 \/ dy = y - y / 2) -> (dx = x / 2 \/ dx = x - x / 2) -> (f' < 4)%nat ->
    asp4 (mkTri 0 f' [dy; dx] [oy'; ox'])).
  { intros dy dx f' oy' ox' Hdy Hdx Hf'. exists 0, f', dy, dx, oy', ox', (n + 1), X, Y.
    pose proof (half_bounds n y dy Y Hn HY Hdy). pose proof (half_bounds n x dx X Hn HX Hdx).
    assert (2 <= dy /\ 2 <= dx).
    { destruct (Z_le_dec 17 x) as [L|L].
      - pose proof (half_big n x y X Y dy Hn ltac:(lia) ltac:(lia) ltac:(lia) L Hdy). lia.
      - assert (17 <= y) by lia. pose proof (half_big n y x Y X dx Hn ltac:(lia) ltac:(lia) ltac:(lia) ltac:(lia) Hdx). lia. }
    split; [reflexivity|]. repeat split; try lia. }
  destruct (tri_subs k f y x oy ox ltac:(lia) ltac:(lia)) as (T0 & T1 & T2 & T3).
  four f; [specialize (T0 eq_refl); destruct T0 as (Q0 & Q1 & Q2 & Q3)
          |specialize (T1 eq_refl); destruct T1 as (Q0 & Q1 & Q2 & Q3)
          |specialize (T2 eq_refl); destruct T2 as (Q0 & Q1 & Q2 & Q3)
          |specialize (T3 eq_refl); destruct T3 as (Q0 & Q1 & Q2 & Q3)];
    four i; rewrite ?Q0, ?Q1, ?Q2, ?Q3; apply G; try lia; auto.
Qed.

Lemma skipn_skipn_add {A} : forall a b (l : list A), skipn b (skipn a l) = skipn (a + b) l.
Proof. induction a as [|a IH]; intros b [|x l]; cbn [skipn Nat.add]; auto. now rewrite skipn_nil. Qed.

(** ** C15 *)

(** For boxes whose aspect ratio does not exceed 4 the regions are disjoint,
    have the sizes demanded, lie in the box, and decompose it if the weights
    add up to its volume. *)
Theorem C15_hindexing : forall oy ox ny nx offset weights fuel,
  2 <= ny -> 2 <= nx -> nx <= 4 * ny -> ny <= 4 * nx ->
  Forall (fun w => 0 <= w) weights -> 0 <= offset -> offset + zsum weights <= ny * nx ->
  5 * (ny * nx) + 2 <= Z.of_nat fuel -> 1300 <= Z.of_nat fuel ->
  let get := hindexing_region fuel [oy; ox] [ny; nx] offset weights in
  let n := length weights in
  all_defined 1 n get /\ disjoint 1 n get /\
  (forall k w, nth_error weights k = Some w -> cell_count 1 get k (Z.to_nat w)) /\
  (forall k c, (k < n)%nat -> cells 1 get k c -> in_box (mkBox [oy; ox] [ny; nx]) c) /\
  (offset = 0 -> zsum weights = ny * nx -> exact_cover 1 n get (in_box (mkBox [oy; ox] [ny; nx]))).
Proof.
  intros oy ox ny nx offset weights fuel Hy Hx Ha1 Ha2 Hw Ho Hs Hf Hf2 get n.
  destruct (hi_fill_ok fuel Hf2) as (cache & E & Hc).
  assert (Hca := hi_with_cache_ok 17 cache ltac:(lia) Hc).
  destruct (order_tiles oy ox ny nx ltac:(lia) ltac:(lia)) as (HN & HI & HL). set (T := hi_order [oy; ox] [ny; nx]) in *.
  assert (Hasp : forall c, asp4 (mkTri c 2 [ny; nx] [oy; ox]) /\ asp4 (mkTri c 1 [ny; nx] [oy + ny; ox + nx])).
  { intros c. split; do 6 eexists; exists 0, nx, ny; (split; [reflexivity|]); change (2 ^ 0) with 1; repeat split; lia. }
  assert (Hat : forall k, 0 <= k -> exists it, hi_at 17 17 cache fuel [oy; ox] [ny; nx] k = Some it /\
      st 17 17 [oy; ox] (ny * nx) fuel it (skipn (Z.to_nat k) T)).
  { intros k Hk. apply (at_st 17 17 cache Hca asp4 asp4_nt asp4_sub); auto; lia. }
  assert (Hlen : Forall (fun c => length c = 2%nat) T).
  { apply Forall_forall. intros c Hin. apply HI in Hin. destruct c as [|a [|b [|]]]; cbn in Hin; tauto. }
  assert (Hget : forall k, (k < n)%nat ->
     get k = Some (reg_of_coords 2 (slice T (offset + zsum (firstn k weights)) (offset + zsum (firstn (S k) weights))))).
  { intros k Hk. unfold get, hindexing_region, hi_region_with. rewrite E. cbn [obind].
    rewrite node_range_spec by auto. cbn [obind].
    pose proof (zsum_nonneg _ (Forall_firstn' _ _ Hw k)). pose proof (zsum_firstn_mono weights Hw k (S k) ltac:(lia)).
    pose proof (zsum_firstn_mono weights Hw (S k) (length weights) ltac:(unfold n in Hk; lia)) as Hm. rewrite firstn_all in Hm.
    set (a := offset + zsum (firstn k weights)) in *. set (b := offset + zsum (firstn (S k) weights)) in *.
    destruct (Hat a ltac:(lia)) as (i & Ei & Hi). destruct (Hat b ltac:(lia)) as (e & Ee & He). rewrite Ei, Ee. cbn [obind].
    assert (Hsp : skipn (Z.to_nat a) T = slice T a b ++ skipn (Z.to_nat b) T).
    { unfold slice. rewrite <- (firstn_skipn (Z.to_nat (b - a)) (skipn (Z.to_nat a) T)) at 1. f_equal.
      rewrite skipn_skipn_add. f_equal. lia. }
    rewrite (range_st 17 17 cache Hca [oy; ox] (ny * nx) fuel ltac:(nia) (slice T a b) (skipn (Z.to_nat b) T) i e fuel).
    - reflexivity.
    - rewrite <- Hsp. now apply NoDup_skipn'.
    - now rewrite <- Hsp.
    - exact He.
    - unfold slice. rewrite firstn_length, skipn_length. lia. }
  destruct (slices_partition 1 T offset weights get HN Hlen Hw Ho Hget) as (H1 & H2 & H3 & H4 & H5).
  split; [exact H1|]. split; [exact H2|]. split; [intros k w Hk; apply H3; auto; lia|].
  split; [intros k c Hk Hcc; apply HI; eauto|].
  intros E0 Es. destruct (H5 E0 ltac:(lia)) as (A & B & C). split; [exact A|]. split; [exact B|].
  intros c. change (inside [oy; ox] [ny; nx] c <-> exists k, (k < n)%nat /\ cells 1 get k c). rewrite <- (HI c). apply C.
Qed.
Print Assumptions C15_hindexing.

Example C15_example :
  exists r, hindexing_region 1300 [1; 2] [6; 20] 0 [50; 70] 1 = Some r /\ reg_count r [1; 2] = Some false /\ reg_count r [6; 2] = Some true.
Proof. eexists. split; [vm_compute; reflexivity|]. auto. Qed.

(** The complete traversal from [begin()] to [end()] visits each coordinate
    of the box exactly once, whatever the aspect ratio. *)
Theorem C15_hindexing_traversal : forall oy ox ny nx fuel,
  0 <= ny -> 0 <= nx -> 5 * (ny * nx) + 2 <= Z.of_nat fuel -> 1300 <= Z.of_nat fuel ->
  exists T, hindexing_traversal fuel [oy; ox] [ny; nx] = Some T /\ NoDup T /\
    forall c, In c T <-> in_box (mkBox [oy; ox] [ny; nx]) c.
Proof.
  intros oy ox ny nx fuel Hy Hx Hf Hf2. destruct (hi_fill_ok fuel Hf2) as (cache & E & Hc).
  assert (Hca := hi_with_cache_ok 17 cache ltac:(lia) Hc). unfold hindexing_traversal, hi_traversal. rewrite E. cbn [obind].
  destruct (Z.eq_dec (ny * nx) 0) as [E0|E0].
  - exists []. split.
    + assert (Htr : has_trivial [ny; nx] = true) by (unfold has_trivial; cbn [prod]; apply orb_true_intro; left; lia).
      assert (Hl : forall f t, t_dim t = [ny; nx] -> tri_length f t = Some 0).
      { intros f t Ht. destruct f; cbn [tri_length]; rewrite Ht, Htr; cbn [prod]; replace (ny * (nx * 1)) with 0 by lia; now destruct (Nat.odd _). }
      unfold hi_at. destruct fuel as [|[|fuel]]; [lia|lia|].
      rewrite (locate_skip 17 17 cache _ _ (mkTri 0 2 [ny; nx] [oy; ox]) _ _ _ 0) by (first [apply Hl; reflexivity | lia]).
      rewrite (locate_none 17 17 cache _ _ (mkTri (-1) 1 [ny; nx] (zadd [oy; ox] [ny; nx])) _ 0) by (first [apply Hl; reflexivity | lia]). cbn [obind hi_next iter_range hi_eqb].
      now rewrite coord_eqb_refl.
    + split; [constructor|]. intros c. split; [intros []|]. unfold in_box. cbn [b_origin b_dim].
      destruct c as [|a [|b [|]]]; cbn [inside]; try tauto. intros (A & B & _). apply Z.mul_eq_0 in E0. lia.
  - assert (1 <= ny /\ 1 <= nx) by nia.
    destruct (order_tiles oy ox ny nx ltac:(lia) ltac:(lia)) as (HN & HI & HL). set (T := hi_order [oy; ox] [ny; nx]) in *.
    destruct (at_st 17 17 cache Hca (fun _ => False) ltac:(tauto) ltac:(tauto) oy ox ny nx fuel 0 ltac:(lia) ltac:(lia) Hf ltac:(lia) ltac:(auto)) as (it & Ea & Hst).
    fold T in Hst. cbn [Z.to_nat skipn] in Hst. rewrite Ea. cbn [obind]. exists T. split; [|split; [exact HN|exact HI]].
    apply (range_st 17 17 cache Hca [oy; ox] (ny * nx) fuel ltac:(nia) T [] it (HEnd [oy; ox])).
    + now rewrite app_nil_r.
    + now rewrite app_nil_r.
    + reflexivity.
    + lia.
Qed.
Print Assumptions C15_hindexing_traversal.

Example C15_traversal_example : hindexing_traversal 1300 [0; 0] [2; 3] = Some [[0; 0]; [0; 1]; [0; 2]; [1; 1]; [1; 2]; [1; 0]].
Proof. vm_compute. reflexivity. Qed.

(** ** C59 *)

(** Stretched boxes: positioning an iterator within a one cell wide stripe
    ignores the remainder, so that a node misses cells. Here cell 4 of a row of
    five cells belongs to neither of two nodes, though their weights add up to
    the volume. *)
Theorem C59_hindexing_stretched_refuted : exists origin dims weights fuel,
  Forall (fun w => 0 <= w) weights /\ zsum weights = prod dims /\ length dims = 2%nat /\ 5 * prod dims + 2 <= Z.of_nat fuel /\ 1300 <= Z.of_nat fuel /\
  let get := hindexing_region fuel origin dims 0 weights in
  all_defined 1 (length weights) get /\ exists c, in_box (mkBox origin dims) c /\ forall k, (k < length weights)%nat -> ~ cells 1 get k c.
Proof.
  exists [0; 0], [1; 5], [2; 3], (Z.to_nat 1300). split; [repeat constructor; lia|]. split; [reflexivity|]. split; [reflexivity|].
  split; [cbn [prod]; lia|]. split; [lia|]. intros get.
  assert (E0 : get 0%nat = Some (reg_of_coords 2 [[0; 0]])) by (vm_compute; reflexivity).
  assert (E1 : get 1%nat = Some (reg_of_coords 2 [[0; 1]; [0; 2]; [0; 3]])) by (vm_compute; reflexivity).
  split.
  - intros [|[|k]] Hk; cbn [length] in Hk; try lia; eexists; (split; [eassumption|]); apply of_coords_spec; repeat constructor.
  - exists [0; 4]. split; [cbn; lia|]. intros [|[|k]] Hk (r & Hr & _ & Hcnt); cbn [length] in Hk; try lia.
    + rewrite E0 in Hr. injection Hr as <-. vm_compute in Hcnt. discriminate.
    + rewrite E1 in Hr. injection Hr as <-. vm_compute in Hcnt. discriminate.
Qed.
Print Assumptions C59_hindexing_stretched_refuted.
