(** The Hilbert curve cuts its squares properly, and its cache is right. *)
From Verif Require Import Base ListFacts RegionSpec RegionModel RegionRep RegionIterModel
  CoordModel CoordSpec RegionOpsModel RegionOps CoordFacts RegionHistory RegionHist RegionReach PartitionSpec PartitionModel
  PartitionFacts StripingFacts CheckerFacts BisectionFacts SfcModel SfcFacts ZcurveFacts.

Definition good_h (sq : square) : Prop :=
  exists oy ox dy dx f, sq = mkSq [oy; ox] [dy; dx] f /\ 0 <= dy /\ 0 <= dx /\ (f < 4)%nat.

Lemma h_nontriv dy dx : 0 <= dy -> 0 <= dx -> has_trivial [dy; dx] = false -> 2 <= dy /\ 2 <= dx.
Proof.
  intros Hy Hx H. unfold has_trivial in H. apply orb_false_elim in H. cbn [prod csum length] in H. destruct H as [H1 H2].
  change (Z.of_nat 2) with 2 in H2. apply Z.eqb_neq in H1, H2. assert (dy <> 0) by (intros ->; lia). assert (dx <> 0) by (intros ->; lia).
  assert (dy <> 1) by (intros ->; lia). assert (dx <> 1) by (intros ->; lia). lia.
Qed.

Ltac two := apply (f_equal2 cons); [lia|apply (f_equal2 cons); [lia|reflexivity]].
Ltac four i := destruct i as [|[|[|[|i]]]]; [| | | |exfalso; lia].

Lemma hilbert_ok mx my cache : curve_ok 2 (hilbert_with mx my cache) good_h.
Proof.
  constructor.
  - intros sq (oy & ox & dy & dx & f & -> & _). auto.
  - intros sq (oy & ox & dy & dx & f & -> & Hy & Hx & _). cbn. repeat constructor; auto.
  - cbn. lia.
  - intros sq (oy & ox & dy & dx & f & -> & Hy & Hx & Hf) Hv Ht. unfold vol, in_sq in *. cbn [sq_dim sq_org cv_axis hilbert_with] in *.
    unfold hilbert_axis. cbn [last]. unfold has_trivial in Ht. apply orb_prop in Ht. cbn [prod csum length] in *.
    change (Z.of_nat 2) with 2 in Ht. assert (Ht' : (dy - 1) * (dx - 1) = 0) by lia. apply Z.mul_eq_0 in Ht'.
    assert (Hc : 0 < dy /\ 0 < dx) by nia. destruct (Z.ltb_spec 1 dx) as [L|L].
    + assert (dy = 1) by lia. subst dy. cbn [nth]. split; [lia|]. split; [lia|]. unfold add_axis. cbn [nth set_nth].
      intros [|y [|x [|]]]; cbn [inside]; try (split; [tauto|intros (k & _ & E); discriminate]).
      split.
      * intros (H1 & H2 & _). exists (x - ox). split; [lia|]. repeat f_equal; lia.
      * intros (k & Hk & [= -> ->]). split; [lia|]. split; [lia|exact I].
    + assert (dx = 1) by lia. subst dx. cbn [nth]. split; [lia|]. split; [lia|]. unfold add_axis. cbn [nth set_nth].
      intros [|y [|x [|]]]; cbn [inside]; try (split; [tauto|intros (k & _ & E); discriminate]).
      split.
      * intros (H1 & H2 & _). exists (y - oy). split; [lia|]. repeat f_equal; lia.
      * intros (k & Hk & [= -> ->]). split; [lia|]. split; [lia|exact I].
  - intros sq i (oy & ox & dy & dx & f & -> & Hy & Hx & Hf) Ht Hi. cbn [sq_dim] in Ht. cbn [cv_sub cv_nq hilbert_with] in *.
    unfold good_h. four f; four i; cbn; do 5 eexists; (split; [reflexivity|]); (split; [|split]); try lia.
  - intros sq i (oy & ox & dy & dx & f & -> & Hy & Hx & Hf) Ht Hi. cbn [sq_dim] in Ht. cbn [cv_sub cv_nq hilbert_with] in *.
    apply h_nontriv in Ht; auto. destruct Ht. unfold vol.
    assert (1 <= dy / 2 < dy /\ 1 <= dx / 2 < dx) by lia.
    four f; four i; cbn [hilbert_sub hilbert_sector sq_dim sq_org sq_form nth prod]; nia.
  - intros sq (oy & ox & dy & dx & f & -> & Hy & Hx & Hf) Ht. cbn [cv_sub cv_nq hilbert_with]. unfold ksum, vol. cbn [seq map zsum].
    four f; cbn [hilbert_sub hilbert_sector sq_dim sq_org sq_form nth prod]; ring.
  - intros sq (oy & ox & dy & dx & f & -> & Hy & Hx & Hf) Ht. cbn [sq_dim] in Ht. cbn [cv_sub cv_nq hilbert_with Nat.sub].
    apply h_nontriv in Ht; auto. destruct Ht. unfold vol. assert (1 <= dy / 2 < dy /\ 1 <= dx / 2 < dx) by lia.
    four f; cbn [hilbert_sub hilbert_sector sq_dim sq_org sq_form nth prod]; nia.
  - intros sq i (oy & ox & dy & dx & f & -> & Hy & Hx & Hf) Ht Hi. cbn [cv_sub cv_accu cv_nq hilbert_with] in *. unfold ksum, vol.
    four f; four i; cbn [hilbert_accu hilbert_sub hilbert_sector sq_dim sq_org sq_form nth prod nth_error seq map zsum]; f_equal; ring.
  - intros sq i pos (oy & ox & dy & dx & f & -> & Hy & Hx & Hf) Ht Hi Hp. cbn [sq_dim] in Ht.
    apply h_nontriv in Ht; auto. destruct Ht. cbn [cv_sub cv_accu cv_pick cv_nq hilbert_with] in *. unfold ksum, vol in Hp.
    assert (1 <= dy / 2 < dy /\ 1 <= dx / 2 < dx) by lia. unfold hilbert_pick.
    four f; four i; cbn [hilbert_accu hilbert_sub hilbert_sector sq_dim sq_org sq_form nth prod nth_error seq map zsum] in *.
    all: set (hy := dy / 2) in *; set (hx := dx / 2) in *; clearbody hx hy.
    all: repeat match goal with |- context [?a <? ?b] => destruct (Z.ltb_spec a b) end; try reflexivity; exfalso; nia.
  - intros sq c (oy & ox & dy & dx & f & -> & Hy & Hx & Hf) Ht. unfold in_sq. cbn [cv_sub cv_nq hilbert_with sq_org sq_dim].
    destruct c as [|y [|x [|]]].
    + split; [intros []|]. intros (i & Hi & H). four f; four i; destruct H.
    + split; [intros [_ []]|]. intros (i & Hi & H). four f; four i; destruct H as [_ []].
    + assert (Hh : 0 <= dy / 2 <= dy /\ 0 <= dx / 2 <= dx) by lia. split.
      * cbn [inside]. intros (H1 & H2 & _).
        destruct (Z_lt_le_dec y (oy + dy / 2)), (Z_lt_le_dec x (ox + dx / 2)); four f;
        (first [ exists 0%nat; split; [lia|]; cbn; lia | exists 1%nat; split; [lia|]; cbn; lia
               | exists 2%nat; split; [lia|]; cbn; lia | exists 3%nat; split; [lia|]; cbn; lia ]).
      * intros (i & Hi & H). four f; four i; cbn in H |- *; lia.
    + split; [intros [_ [_ []]]|]. intros (i & Hi & H). four f; four i; destruct H as [_ [_ []]].
  - intros sq i j c (oy & ox & dy & dx & f & -> & Hy & Hx & Hf) Ht Hi Hj H1 H2. unfold in_sq in *. cbn [cv_sub cv_nq hilbert_with sq_org sq_dim] in *.
    destruct c as [|y [|x [|]]].
    + four f; four i; destruct H1.
    + four f; four i; destruct H1 as [_ []].
    + four f; four i; four j; try reflexivity; exfalso; cbn in H1, H2; lia.
    + four f; four i; destruct H1 as [_ [_ []]].
Qed.

(** ** The traversal does not depend on the cache and moves with the origin *)

Lemma trav_cache mx my cache mx' my' cache' : forall fuel sq,
  trav (hilbert_with mx my cache) fuel sq = trav (hilbert_with mx' my' cache') fuel sq.
Proof.
  induction fuel as [|fuel IH]; intros sq; cbn [trav]; auto.
  destruct (vol sq <=? 0); auto. destruct (has_trivial (sq_dim sq)); auto. apply flat_map_ext_in. intros i _. apply IH.
Qed.

Lemma travel_cache mx my cache mx' my' cache' sq :
  travel (hilbert_with mx my cache) sq = travel (hilbert_with mx' my' cache') sq.
Proof. apply trav_cache. Qed.

Definition h0 : curve := hilbert_with 0 0 (fun _ _ => []).

Lemma flat_map_map {A B C} (f : B -> C) (g : A -> list B) l : flat_map (fun x => map f (g x)) l = map f (flat_map g l).
Proof. induction l; cbn; auto. now rewrite IHl, map_app. Qed.

Lemma trav_shift py px : forall fuel oy ox dy dx f, (f < 4)%nat ->
  trav h0 fuel (mkSq [py + oy; px + ox] [dy; dx] f) = map (zadd [py; px]) (trav h0 fuel (mkSq [oy; ox] [dy; dx] f)).
Proof.
  induction fuel as [|fuel IH]; intros oy ox dy dx f Hf; cbn [trav]; unfold vol; cbn [sq_dim sq_org];
    destruct (prod [dy; dx] <=? 0); auto; destruct (has_trivial [dy; dx]) eqn:Ht; auto.
  - rewrite map_map. apply map_ext. intros k. unfold add_axis, h0. cbn [cv_axis hilbert_with]. unfold hilbert_axis.
    destruct (1 <? last [dy; dx] 0); cbn [nth set_nth zadd]; two.
  - rewrite map_map. apply map_ext. intros k. unfold add_axis, h0. cbn [cv_axis hilbert_with]. unfold hilbert_axis.
    destruct (1 <? last [dy; dx] 0); cbn [nth set_nth zadd]; two.
  - rewrite <- flat_map_map. apply flat_map_ext_in. intros i Hi. apply in_seq in Hi. change (cv_nq h0) with 4%nat in Hi.
    cbn [cv_sub h0 hilbert_with]. four f; four i; cbn [hilbert_sub hilbert_sector hilbert_form sq_org sq_dim sq_form nth];
      rewrite <- ?Z.add_assoc; apply IH; lia.
Qed.

Lemma travel_shift oy ox dy dx f : (f < 4)%nat ->
  travel h0 (mkSq [oy; ox] [dy; dx] f) = map (zadd [oy; ox]) (travel h0 (mkSq [0; 0] [dy; dx] f)).
Proof.
  intros Hf. unfold travel. rewrite <- trav_shift by auto. rewrite !Z.add_0_r. reflexivity.
Qed.

(** ** Filling the cache *)

Definition entry_ok (cache : coord -> nat -> list coord) (y x : Z) (f : nat) : Prop :=
  cache [y; x] f = travel h0 (mkSq [0; 0] [y; x] f).

Definition below (Y : Z) (y x : Z) (f : nat) : Prop := 2 <= y < Y /\ 2 <= x <= 16 /\ (f < 4)%nat.

Lemma with_cache_ok Y cache : Y <= 17 -> (forall y x f, below Y y x f -> entry_ok cache y x f) ->
  let cv := hilbert_with Y Y cache in
  forall sq, good_h sq -> has_trivial (sq_dim sq) = false -> cv_cached cv (sq_dim sq) = true ->
  map (zadd (sq_org sq)) (cv_cache cv (sq_dim sq) (sq_form sq)) = travel cv sq.
Proof.
  intros HY Hc cv sq (oy & ox & dy & dx & f & -> & Hy & Hx & Hf) Ht Hcd. cbn [sq_dim sq_org sq_form] in *.
  apply h_nontriv in Ht; auto. cbn [cv_cached cv hilbert_with hilbert_cached] in Hcd.
  cbn [cv_cache cv hilbert_with]. rewrite (Hc dy dx f) by (unfold below; lia). rewrite <- travel_shift by auto.
  unfold cv, h0. apply travel_cache.
Qed.

Lemma fill_entry_ok fuel y x f cache (S : Z -> Z -> nat -> Prop) :
  2 <= y <= 16 -> 2 <= x <= 16 -> (f < 4)%nat -> 256 <= Z.of_nat fuel ->
  (forall y' x' f', below y y' x' f' -> S y' x' f') -> (forall y' x' f', S y' x' f' -> entry_ok cache y' x' f') ->
  exists cache', hilbert_fill_entry fuel y cache [y; x] f = Some cache' /\
    forall y' x' f', S y' x' f' \/ (y' = y /\ x' = x /\ f' = f) -> entry_ok cache' y' x' f'.
Proof.
  intros Hy Hx Hf Hfu HS Hc. unfold hilbert_fill_entry. set (cv := hilbert_with y y cache).
  assert (Hok := hilbert_ok y y cache). fold cv in Hok.
  assert (Hca := with_cache_ok y cache ltac:(lia) (fun y' x' f' H => Hc y' x' f' (HS y' x' f' H))). fold cv in Hca.
  set (sq := mkSq [0; 0] [y; x] f).
  assert (Hg : good_h sq) by (do 5 eexists; split; [reflexivity|]; repeat split; auto; lia).
  assert (Hv : vol sq = y * (x * 1)) by reflexivity. assert (Hvf : vol sq <= Z.of_nat fuel) by nia.
  destruct (at_spec 2 cv good_h Hok Hca [0; 0] [y; x] f fuel 0 Hg Hvf) as (it & E & _); [fold sq; nia|].
  rewrite E. cbn [obind].
  rewrite (range_spec 2 cv good_h Hok Hca [0; 0] [y; x] f fuel Hg Hvf (Z.to_nat (vol sq)) 0 fuel it (SfcEnd [0; 0])); auto; try lia.
  2: { fold sq. nia. }
  2: { apply (at_end cv good_h Hca). fold sq. lia. }
  cbn [obind]. eexists. split; [reflexivity|]. fold sq. intros y' x' f' H. unfold entry_ok, cache_set.
  destruct (coord_eqb [y'; x'] [y; x] && (f' =? f)%nat) eqn:Ec.
  - apply andb_prop in Ec. destruct Ec as [E1 E2]. apply coord_eqb_spec in E1. injection E1 as -> ->. apply Nat.eqb_eq in E2. subst f'.
    fold sq. unfold slice. rewrite Z2Nat.id by nia. cbn [Z.to_nat skipn]. rewrite firstn_all2.
    + unfold cv, h0. apply travel_cache.
    + pose proof (travel_length 2 cv good_h Hok sq Hg). lia.
  - destruct H as [H|(-> & -> & ->)]; [now apply Hc|].
    rewrite coord_eqb_refl, Nat.eqb_refl in Ec. discriminate.
Qed.

Lemma fill_forms_ok fuel y x : 2 <= y <= 16 -> 2 <= x <= 16 -> 256 <= Z.of_nat fuel ->
  forall forms cache (S : Z -> Z -> nat -> Prop), Forall (fun f => (f < 4)%nat) forms ->
  (forall y' x' f', below y y' x' f' -> S y' x' f') -> (forall y' x' f', S y' x' f' -> entry_ok cache y' x' f') ->
  exists cache', hilbert_fill_forms fuel y [y; x] forms cache = Some cache' /\
    forall y' x' f', S y' x' f' \/ (y' = y /\ x' = x /\ In f' forms) -> entry_ok cache' y' x' f'.
Proof.
  intros Hy Hx Hfu. induction forms as [|f fs IH]; intros cache S Hfs HS Hc; cbn [hilbert_fill_forms].
  - exists cache. split; auto. intros y' x' f' [H|(_ & _ & [])]. auto.
  - apply Forall_cons_iff' in Hfs. destruct Hfs as [Hf Hfs].
    destruct (fill_entry_ok fuel y x f cache S Hy Hx Hf Hfu HS Hc) as (c1 & E1 & H1). rewrite E1. cbn [obind].
    destruct (IH c1 (fun y' x' f' => S y' x' f' \/ (y' = y /\ x' = x /\ f' = f)) Hfs) as (c2 & E2 & H2); auto.
    exists c2. split; auto. intros y' x' f' [H|(-> & -> & [->|H])]; apply H2; auto.
Qed.

Lemma fill_row_ok fuel y : 2 <= y <= 16 -> 256 <= Z.of_nat fuel ->
  forall xs cache (S : Z -> Z -> nat -> Prop), Forall (fun x => 2 <= x <= 16) xs ->
  (forall y' x' f', below y y' x' f' -> S y' x' f') -> (forall y' x' f', S y' x' f' -> entry_ok cache y' x' f') ->
  exists cache', hilbert_fill_row fuel y xs cache = Some cache' /\
    forall y' x' f', S y' x' f' \/ (y' = y /\ In x' xs /\ (f' < 4)%nat) -> entry_ok cache' y' x' f'.
Proof.
  intros Hy Hfu. induction xs as [|x xs IH]; intros cache S Hxs HS Hc; cbn [hilbert_fill_row].
  - exists cache. split; auto. intros y' x' f' [H|(_ & [] & _)]. auto.
  - apply Forall_cons_iff' in Hxs. destruct Hxs as [Hx Hxs].
    destruct (fill_forms_ok fuel y x Hy Hx Hfu [0; 1; 2; 3]%nat cache S) as (c1 & E1 & H1); auto; [repeat constructor; lia|].
    rewrite E1. cbn [obind].
    destruct (IH c1 (fun y' x' f' => S y' x' f' \/ (y' = y /\ x' = x /\ In f' [0; 1; 2; 3]%nat)) Hxs) as (c2 & E2 & H2); auto.
    exists c2. split; auto. intros y' x' f' [H|(-> & [<-|H] & Hf)]; apply H2; auto.
    left. right. split; auto. split; auto. cbn. lia.
Qed.

Fixpoint consecutive (y : Z) (ys : list Z) : Prop :=
  match ys with [] => True | z :: zs => z = y /\ consecutive (y + 1) zs end.

Lemma fill_rows_ok fuel xs : 256 <= Z.of_nat fuel -> Forall (fun x => 2 <= x <= 16) xs -> (forall x, 2 <= x <= 16 -> In x xs) ->
  forall ys y cache, consecutive y ys -> 2 <= y -> y + Z.of_nat (length ys) <= 17 ->
  (forall y' x' f', below y y' x' f' -> entry_ok cache y' x' f') ->
  exists cache', hilbert_fill_rows fuel xs ys cache = Some cache' /\
    forall y' x' f', below (y + Z.of_nat (length ys)) y' x' f' -> entry_ok cache' y' x' f'.
Proof.
  intros Hfu Hxs Hall. induction ys as [|y1 ys IH]; intros y cache Hc Hy Hle Hcache; cbn [hilbert_fill_rows].
  - exists cache. cbn [length]. rewrite Z.add_0_r. split; auto.
  - destruct Hc as [-> Hc]. cbn [length] in *.
    destruct (fill_row_ok fuel y ltac:(lia) Hfu xs cache (below y)) as (c1 & E1 & H1); auto. rewrite E1. cbn [obind].
    destruct (IH (y + 1) c1 Hc ltac:(lia) ltac:(lia)) as (c2 & E2 & H2).
    + intros y' x' f' (B1 & B2 & B3). apply H1. destruct (Z.eq_dec y' y) as [->|]; [right; auto|left; unfold below; lia].
    + exists c2. split; auto. intros y' x' f' H. apply H2. unfold below in *. lia.
Qed.

Lemma hilbert_fill_ok fuel : 256 <= Z.of_nat fuel ->
  exists cache, hilbert_fill fuel = Some cache /\ forall y x f, below 17 y x f -> entry_ok cache y x f.
Proof.
  intros Hfu. unfold hilbert_fill.
  destruct (fill_rows_ok fuel [2; 3; 4; 5; 6; 7; 8; 9; 10; 11; 12; 13; 14; 15; 16] Hfu) with
    (ys := [2; 3; 4; 5; 6; 7; 8; 9; 10; 11; 12; 13; 14; 15; 16]) (y := 2) (cache := fun (_ : coord) (_ : nat) => @nil coord) as (cache & E & H).
  - repeat constructor; lia.
  - intros x Hx. cbn [In]. lia.
  - cbn. tauto.
  - lia.
  - cbn. lia.
  - intros y x f (B & _). lia.
  - exists cache. split; auto.
Qed.
