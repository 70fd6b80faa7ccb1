(** Facts on RegionBasedAdjacency. *)
From Coq Require Import Sorted Permutation.
From Verif Require Import Base ListFacts RegionSpec RegionModel RegionTree RegionFlat RegionEnc RegionRep RegionIterModel RegionIter RegionStreaks CoordModel CoordSpec
  RegionOpsModel RegionOps RegionSeekModel RegionSeek RegionGeometry RegionObjModel SellModel SellFacts AdjacencyModel AdjacencySpec.

(** ** Limits *)

Lemma count_lt_split (l : list Z) y : exists p q, l = p ++ q /\ count_while (fun x => (x <? y)%Z) l = length p /\ Forall (fun x => x < y) p /\ (forall x, hd_error q = Some x -> y <= x).
Proof.
  induction l as [|x l IH].
  - exists [], []. repeat split; [constructor|discriminate].
  - cbn [count_while]. destruct (Z.ltb_spec x y) as [H|H].
    + destruct IH as (p & q & -> & -> & Hp & Hq). exists (x :: p), q. repeat split; auto.
    + exists [], (x :: l). repeat split; [constructor|]. cbn. congruence.
Qed.

Lemma count_lt_app (p q : list Z) y : count_while (fun x => (x <? y)%Z) (p ++ q) =
  if forallb (fun x => (x <? y)%Z) p then (length p + count_while (fun x => (x <? y)%Z) q)%nat else count_while (fun x => (x <? y)%Z) p.
Proof.
  induction p as [|x p IH]; [reflexivity|]. cbn [count_while forallb app length]. destruct (x <? y); [|reflexivity]. cbn [andb]. rewrite IH. destruct (forallb _ p); reflexivity.
Qed.

Lemma count_lt_prefix (p : list Z) y : forallb (fun x => (x <? y)%Z) p = false -> (count_while (fun x => (x <? y)%Z) p < length p)%nat.
Proof. induction p as [|x p IH]; cbn [forallb count_while length]; [discriminate|]. destruct (x <? y); cbn [andb]; intros H; [specialize (IH H)|]; lia. Qed.

(** Inserting a limit where its index says, moves what lies beyond. *)
Lemma index_split (l : list Z) k i : i = count_while (fun x => (x <? k)%Z) l -> (i < length l)%nat -> forall y,
  count_while (fun x => (x <? y)%Z) (firstn i l ++ k :: skipn i l) = let j := count_while (fun x => (x <? y)%Z) l in if k <? y then S j else j.
Proof.
  intros Hi Hl y. destruct (count_lt_split l k) as (p & q & E & Ec & Hp & Hq). rewrite Ec in Hi.
  assert (Ef : firstn i l = p /\ skipn i l = q). { rewrite E, Hi. split; [now rewrite firstn_app, firstn_all, Nat.sub_diag, app_nil_r|now rewrite skipn_app_exact]. }
  destruct Ef as [-> ->]. cbv zeta. rewrite E, !count_lt_app. destruct (Z.ltb_spec k y) as [Hk|Hk].
  - replace (forallb (fun x => (x <? y)%Z) p) with true.
    + cbn [count_while]. replace (k <? y) with true by lia. lia.
    + symmetry. apply forallb_forall. intros x Hx. rewrite Forall_forall in Hp. specialize (Hp x Hx). lia.
  - destruct (forallb (fun x => (x <? y)%Z) p) eqn:Ef; [|reflexivity]. f_equal. cbn [count_while]. replace (k <? y) with false by lia.
    destruct q as [|x q]; [rewrite E, app_nil_r in Hl; lia|]. cbn [count_while]. specialize (Hq x eq_refl). replace (x <? y) with false by lia. reflexivity.
Qed.

Lemma index_bound (l : list Z) m y : In m l -> y <= m -> (count_while (fun x => (x <? y)%Z) l < length l)%nat.
Proof.
  intros Hm Hy. destruct (count_lt_split l y) as (p & q & E & -> & Hp & _). rewrite E, app_length. destruct q; [|cbn; lia].
  exfalso. rewrite app_nil_r in E. subst l. rewrite Forall_forall in Hp. specialize (Hp m Hm). lia.
Qed.

(** ** Streaks of two-dimensional regions *)

Lemma streaks_2d (t : tree 1) r : twf 1 t -> r = enc (lvl 1 t) -> reg_streaks r = Some (flat_map row_streaks t).
Proof.
  intros Hw E. assert (Hoff := streaks_tree 1 t (zero_off r) 0 Hw).
  unfold reg_streaks in *. rewrite E in *.
  rewrite Hoff by (rewrite zero_off_repeat, repeat_length, enc_length, lvl_length; auto). f_equal.
  rewrite tstr_2d. apply map_id_in. intros s Hs. apply in_flat_map in Hs. destruct Hs as (p & _ & Hs).
  unfold row_streaks in Hs. apply in_map_iff in Hs. destruct Hs as (e & <- & _).
  rewrite zero_off_repeat. apply s_shift_zero. cbn [s_pre length]. rewrite enc_length, lvl_length. lia.
Qed.

(** Entries of the upper index vector are rows. *)
Lemma row_key r e : rvalid 1 r -> In e (hd [] r) -> exists x, rin r [fst e; x].
Proof.
  intros Hv He. pose proof Hv as (t & Hw & E). pose proof (streaks_2d t r Hw E) as Hl. rewrite E, enc_2d in He. cbn [hd] in He.
  apply cl_fst in He. destruct He as ([k row] & Hp & ->). cbn [fst]. destruct Hw as [_ Hrows]. rewrite Forall_forall in Hrows. specialize (Hrows (k, row) Hp). cbn in Hrows.
  destruct row as [|e' row]; [exfalso; destruct Hrows as [Hn _]; now apply Hn|]. destruct (streaks_valid 1 r Hv) as (l & Hok & Hin & El & _). rewrite Hl in El. injection El as <-.
  exists (fst e'). apply Hin; [reflexivity|]. exists (mkStreak [k] (fst e') (snd e')). 
  assert (Hs : In (mkStreak [k] (fst e') (snd e')) (flat_map row_streaks t)). { apply in_flat_map. exists (k, e' :: row). split; [exact Hp|now left]. }
  split; [exact Hs|]. apply (in_streak_snoc _ [k]). split; [reflexivity|]. cbn. destruct Hok as [_ Hf]. rewrite Forall_forall in Hf. specialize (Hf _ Hs). cbn in Hf. lia.
Qed.

Lemma streak_2d d l s : streaks_ok d l -> d = 1%nat -> In s l -> exists k, s = mkStreak [k] (s_x s) (s_e s) /\ s_x s < s_e s.
Proof.
  intros [_ Hf] -> Hs. rewrite Forall_forall in Hf. destruct (Hf s Hs) as [Hl Hx]. destruct s as [[|k [|]] x e]; try discriminate. exists k. auto.
Qed.

Lemma in_streak_2d k x e f t : in_streak (mkStreak [k] x e) [f; t] <-> f = k /\ x <= t < e.
Proof. rewrite (in_streak_snoc _ [f] t). cbn. split; intros [H1 H2]; split; auto; congruence. Qed.

(** ** The invariant *)

Definition rainv (MAX : Z) (a : radj) (P : Z -> Z -> Prop) : Prop :=
  length (ra_regions a) = length (ra_limits a) /\ In MAX (ra_limits a) /\ 0 <= ra_max a /\
  (forall i r, nth_error (ra_regions a) i = Some r -> rg_ok 1 r) /\
  (forall i r f t, nth_error (ra_regions a) i = Some r -> (rin (rg_idx r) [f; t] <-> ra_index a f = i /\ P f t)) /\
  (forall f t, P f t -> f <= MAX /\ t < MAX).

Lemma nth_split_list {A} (l : list A) i x : nth_error l i = Some x -> l = firstn i l ++ x :: skipn (S i) l /\ length (firstn i l) = i.
Proof.
  intros H. apply nth_error_split in H. destruct H as (p & q & -> & Hp). subst i. rewrite firstn_app, firstn_all, Nat.sub_diag. cbn [firstn]. rewrite app_nil_r. split; [|reflexivity].
  do 2 f_equal. replace (p ++ x :: q) with ((p ++ [x]) ++ q) by (now rewrite <- app_assoc). symmetry. apply skipn_app_exact. rewrite app_length. cbn. lia.
Qed.

Lemma nth_error_mid {A} (p q : list A) x i : nth_error (p ++ x :: q) i = if (i =? length p)%nat then Some x else if (i <? length p)%nat then nth_error p i else nth_error q (i - S (length p)).
Proof.
  destruct (Nat.eqb_spec i (length p)) as [->|Hn]; [now rewrite nth_error_app2, Nat.sub_diag|]. destruct (Nat.ltb_spec i (length p)) as [Hl|Hl]; [now rewrite nth_error_app1|].
  rewrite nth_error_app2 by exact Hl. replace (i - length p)%nat with (S (i - S (length p))) by lia. reflexivity.
Qed.

(** Replacing the region a node belongs to. *)
Lemma rainv_replace MAX a P (Q : Z -> Z -> Prop) f r : rainv MAX a P -> f <= MAX -> rg_ok 1 r -> (forall x y, Q x y -> P x y \/ (x = f /\ y < MAX)) -> (forall x y, P x y -> Q x y) ->
  (forall r0, nth_error (ra_regions a) (ra_index a f) = Some r0 -> forall x y, rin (rg_idx r) [x; y] <-> rin (rg_idx r0) [x; y] \/ (x = f /\ Q x y)) ->
  rainv MAX (ra_replace a (ra_index a f) r) Q.
Proof.
  intros (HL & HM & Hmx & Hok & Hin & Hb) Hf Hr HQ HP Hc. set (i := ra_index a f) in *.
  assert (Hi : (i < length (ra_regions a))%nat) by (rewrite HL; now apply (index_bound _ MAX)).
  destruct (nth_error (ra_regions a) i) as [r0|] eqn:E0; [|apply nth_error_None in E0; lia]. destruct (nth_split_list _ _ _ E0) as [Es Hlen].
  unfold rainv, ra_replace. cbn [ra_regions ra_limits ra_max]. split; [rewrite Es in HL; rewrite app_length in HL |- *; cbn [length] in *; exact HL|]. split; [exact HM|]. split; [exact Hmx|].
  assert (Hother : forall j s, j <> i -> nth_error (firstn i (ra_regions a) ++ r :: skipn (S i) (ra_regions a)) j = Some s -> nth_error (ra_regions a) j = Some s).
  { intros j s Hj H. rewrite Es, nth_error_mid, Hlen. rewrite nth_error_mid, Hlen in H. destruct (Nat.eqb_spec j i); [contradiction|exact H]. }
  assert (Hsame : nth_error (firstn i (ra_regions a) ++ r :: skipn (S i) (ra_regions a)) i = Some r) by (now rewrite nth_error_mid, Hlen, Nat.eqb_refl).
  split; [|split].
  - intros j s Hj. destruct (Nat.eq_dec j i) as [->|Hn]; [rewrite Hsame in Hj; now injection Hj as <-|]. apply (Hok j). now apply Hother.
  - intros j s x y Hj. change (ra_index {| ra_regions := _; ra_limits := ra_limits a; ra_max := ra_max a |} x) with (ra_index a x). destruct (Nat.eq_dec j i) as [->|Hn].
    + rewrite Hsame in Hj. injection Hj as <-. rewrite (Hc r0 eq_refl x y), (Hin i r0 x y E0). split.
      * intros [[H1 H2]|[-> H2]]; auto.
      * intros [H1 H2]. destruct (HQ x y H2) as [H|[-> _]]; auto.
    + apply Hother in Hj; [|exact Hn]. rewrite (Hin j s x y Hj). split; intros [H1 H2]; split; auto. destruct (HQ x y H2) as [H|[-> _]]; [exact H|]. fold i in H1. congruence.
  - intros x y Hxy. destruct (HQ x y Hxy) as [H|[-> H]]; [now apply Hb|auto].
Qed.

Lemma insert_new d l : dims_ok d l -> rg_ok d (rg_insert_all (rg_new (S d)) l) /\ forall c, length c = S d -> (rin (rg_idx (rg_insert_all (rg_new (S d)) l)) c <-> in_streaks l c).
Proof.
  intros Hd. split; [apply rg_insert_all_ok; [apply rg_new_ok|exact Hd]|]. intros c Hc. rewrite rg_insert_all_idx. cbn [rg_new rg_idx].
  destruct (insert_all_valid d l (reg_empty (S d)) (rvalid_empty d) Hd) as [_ H]. rewrite (H c Hc). split; [|auto]. intros [Hx|Hx]; [|exact Hx]. exfalso. now apply (rin_empty d c Hc).
Qed.

Lemma rainv_split MAX a P i r0 : rainv MAX a P -> nth_error (ra_regions a) i = Some r0 -> exists a', ra_split MAX a i = Some a' /\ rainv MAX a' P.
Proof.
  intros Ha E0. pose proof Ha as (HL & HM & Hmx & Hok & Hin & Hb). unfold ra_split. rewrite E0. cbn [obind]. set (r := rg_idx r0).
  destruct (Z.leb_spec (Z.of_nat (reg_num_streaks r)) (ra_max a)) as [Hs|Hs]; [eauto|].
  assert (Hv : rvalid 1 r) by (apply (Hok i r0 E0)).
  destruct (streaks_valid 1 r Hv) as (l & Hlok & Hlin & El & _ & Hlp). assert (Hlen : length l = reg_num_streaks r) by (unfold reg_num_streaks; rewrite <- Hlp; now rewrite map_length).
  assert (Hne : (length (hd [] r) / 2 < length (hd [] r))%nat).
  { apply Nat.div_lt; [|lia]. destruct (hd [] r) eqn:Eh; [exfalso|cbn; lia]. destruct l as [|s l]; [cbn in Hlen; lia|].
    destruct Hv as (t & Hw & E). pose proof (streaks_2d t r Hw E) as Hl2. rewrite El in Hl2. injection Hl2 as Hl2. rewrite E, enc_2d in Eh. cbn [hd] in Eh.
    destruct t; [discriminate|]. cbn in Eh. discriminate. }
  destruct (nth_error (hd [] r) (length (hd [] r) / 2)) as [e|] eqn:Ee; [|apply nth_error_None in Ee; lia]. cbn [obind].
  set (nl := fst e). destruct (row_key r e Hv (nth_error_In _ _ Ee)) as (x0 & Hx0). fold nl in Hx0.
  apply (Hin i r0 nl x0 E0) in Hx0. destruct Hx0 as [Hidx HP0].
  destruct (seek_2d r nl MAX Hv) as (mid & ss1 & ss2 & Eo & Es & _ & H1 & H2 & Hmid). rewrite Eo. cbn [obind]. rewrite El in Es. injection Es as Es.
  destruct (begin_at 1 r l Hv El) as (b & Eb & Hbeg). rewrite Eb. cbn [obind].
  rewrite (run_between 1 r l Hv El (length ss1) 0 (length ss1) b mid (reg_num_streaks r) Hbeg Hmid eq_refl) by (rewrite <- ?Hlen, Es, app_length; lia).
  cbn [obind]. change (skipn 0 l) with l. pose proof (end_at r) as Hend. replace (length (last r [])) with (length ss1 + length ss2)%nat in Hend by (fold (reg_num_streaks r); rewrite <- Hlen, Es, app_length; reflexivity).
  rewrite (run_between 1 r l Hv El (length ss2) (length ss1) _ mid (it_end r) (reg_num_streaks r) Hmid Hend eq_refl) by (rewrite <- ?Hlen, Es, app_length; lia).
  cbn [obind]. eexists. split; [reflexivity|].
  rewrite Es, firstn_app, firstn_all, Nat.sub_diag. cbn [firstn]. rewrite app_nil_r, skipn_app_exact, firstn_all by reflexivity.
  (* what the parts hold *)
  assert (Hdim : dims_ok 1 ss1 /\ dims_ok 1 ss2). { pose proof (streaks_dims 1 r l Hv El) as H. rewrite Es in H. now apply Forall_app in H. }
  destruct Hdim as [Hd1 Hd2]. destruct (insert_new 1 ss1 Hd1) as [Hok1 Hin1]. destruct (insert_new 1 ss2 Hd2) as [Hok2 Hin2].
  assert (Hst : forall s, In s l -> exists k, s = mkStreak [k] (s_x s) (s_e s) /\ s_x s < MAX).
  { intros s Hsl. destruct (streak_2d 1 l s Hlok eq_refl Hsl) as (k & Ek & Hx). exists k. split; [exact Ek|]. apply (Hb k (s_x s)). apply (Hin i r0 k (s_x s) E0).
    apply Hlin; [reflexivity|]. exists s. split; [exact Hsl|]. rewrite Ek. apply in_streak_2d. cbn. lia. }
  assert (Hc1 : forall f t, in_streaks ss1 [f; t] <-> ra_index a f = i /\ P f t /\ f <= nl).
  { intros f t. rewrite <- and_assoc, <- (Hin i r0 f t E0). fold r. rewrite (Hlin [f; t] eq_refl). split.
    - intros (s & Hsl & Hss). assert (Hsl' : In s l) by (rewrite Es; apply in_app_iff; auto). split; [exists s; auto|]. destruct (Hst s Hsl') as (k & Ek & Hx). rewrite Ek in Hss. apply in_streak_2d in Hss.
      specialize (H1 s Hsl). rewrite Ek in H1. cbn in H1. lia.
    - intros [(s & Hsl & Hss) Hf]. exists s. split; [|exact Hss]. rewrite Es in Hsl. apply in_app_iff in Hsl. destruct Hsl as [H|H]; [exact H|exfalso].
      assert (Hsl' : In s l) by (rewrite Es; apply in_app_iff; auto). destruct (Hst s Hsl') as (k & Ek & Hx). rewrite Ek in Hss. apply in_streak_2d in Hss.
      apply (H2 s H). rewrite Ek. cbn. lia. }
  assert (Hc2 : forall f t, in_streaks ss2 [f; t] <-> ra_index a f = i /\ P f t /\ nl < f).
  { intros f t. rewrite <- and_assoc, <- (Hin i r0 f t E0). fold r. rewrite (Hlin [f; t] eq_refl). split.
    - intros (s & Hsl & Hss). assert (Hsl' : In s l) by (rewrite Es; apply in_app_iff; auto). split; [exists s; auto|]. destruct (Hst s Hsl') as (k & Ek & Hx). rewrite Ek in Hss. apply in_streak_2d in Hss.
      destruct (Z.lt_ge_cases nl f) as [H|H]; [exact H|exfalso]. apply (H2 s Hsl). rewrite Ek. cbn. lia.
    - intros [(s & Hsl & Hss) Hf]. exists s. split; [|exact Hss]. rewrite Es in Hsl. apply in_app_iff in Hsl. destruct Hsl as [H|H]; [exfalso|exact H].
      assert (Hsl' : In s l) by (rewrite Es; apply in_app_iff; auto). destruct (Hst s Hsl') as (k & Ek & Hx). rewrite Ek in Hss. apply in_streak_2d in Hss.
      specialize (H1 s H). rewrite Ek in H1. cbn in H1. lia. }
  (* limits *)
  assert (Hil : (i < length (ra_limits a))%nat) by (rewrite <- HL; apply nth_error_Some; congruence).
  pose proof (index_split (ra_limits a) nl i (eq_sym Hidx) Hil) as Hix.
  destruct (nth_split_list _ _ _ E0) as [Er Hfi].
  unfold rainv. cbn [ra_regions ra_limits ra_max].
  split. { assert (Hcons : forall A (x : A) l', length (x :: l') = S (length l')) by reflexivity. rewrite !app_length, !Hcons, !firstn_length, !skipn_length. lia. }
  split. { rewrite <- (firstn_skipn i (ra_limits a)) in HM. apply in_app_iff in HM. apply in_app_iff. destruct HM; [auto|right; now right]. }
  split; [exact Hmx|].
  assert (Hcase : forall j s, nth_error (firstn i (ra_regions a) ++ rg_insert_all (rg_new 2) ss1 :: rg_insert_all (rg_new 2) ss2 :: skipn (S i) (ra_regions a)) j = Some s ->
    ((j < i)%nat /\ nth_error (ra_regions a) j = Some s) \/ (j = i /\ s = rg_insert_all (rg_new 2) ss1) \/ (j = S i /\ s = rg_insert_all (rg_new 2) ss2) \/
    ((S i < j)%nat /\ nth_error (ra_regions a) (j - 1) = Some s)).
  { intros j s H. rewrite nth_error_mid, Hfi in H. destruct (Nat.eqb_spec j i) as [->|Hn]; [injection H as <-; auto|]. destruct (Nat.ltb_spec j i) as [Hj|Hj].
    - left. split; [exact Hj|]. rewrite Er, nth_error_mid, Hfi. replace (j =? i)%nat with false by lia. replace (j <? i)%nat with true by lia. exact H.
    - destruct (Nat.eq_dec j (S i)) as [->|Hn2]; [rewrite Nat.sub_diag in H; injection H as <-; auto|]. right. right. right. split; [lia|].
      rewrite Er, nth_error_mid, Hfi. replace (j - 1 =? i)%nat with false by lia. replace (j - 1 <? i)%nat with false by lia.
      replace (j - S i)%nat with (S (j - 1 - S i)) in H by lia. exact H. }
  split; [|split; [|exact Hb]].
  - intros j s Hj. destruct (Hcase j s Hj) as [[_ H]|[[_ ->]|[[_ ->]|[_ H]]]]; auto; [now apply (Hok j)|now apply (Hok (j - 1)%nat)].
  - intros j s f t Hj. unfold ra_index at 1. cbn [ra_limits]. rewrite (Hix f). cbv zeta. fold (ra_index a f).
    assert (Hle : f <= nl -> (ra_index a f <= i)%nat).
    { intros Hf. specialize (Hix nl). destruct (Z.ltb_spec nl nl); [lia|]. cbv zeta in Hix. rewrite <- Hidx. unfold ra_index. destruct (count_lt_split (ra_limits a) nl) as (p & q & Epq & -> & Hp & Hq).
      rewrite Epq, count_lt_app. destruct (forallb (fun x => (x <? f)%Z) p) eqn:Ef.
      - destruct q as [|x q]; [cbn; lia|]. cbn [count_while]. specialize (Hq x eq_refl). replace (x <? f) with false by lia. lia.
      - pose proof (count_lt_prefix p f Ef). lia. }
    assert (Hge : nl < f -> (i <= ra_index a f)%nat).
    { intros Hf. rewrite <- Hidx. unfold ra_index. destruct (count_lt_split (ra_limits a) nl) as (p & q & Epq & -> & Hp & Hq). rewrite Epq, count_lt_app.
      replace (forallb (fun x => (x <? f)%Z) p) with true; [lia|]. symmetry. apply forallb_forall. intros x Hx. rewrite Forall_forall in Hp. specialize (Hp x Hx). lia. }
    destruct (Hcase j s Hj) as [[Hji H]|[[-> ->]|[[-> ->]|[Hji H]]]].
    + rewrite (Hin j s f t H). destruct (Z.ltb_spec nl f) as [Hf|Hf]; [specialize (Hge Hf)|specialize (Hle Hf)]; intuition lia.
    + rewrite (Hin1 [f; t] eq_refl), Hc1. destruct (Z.ltb_spec nl f) as [Hf|Hf]; [specialize (Hge Hf)|specialize (Hle Hf)]; intuition lia.
    + rewrite (Hin2 [f; t] eq_refl), Hc2. destruct (Z.ltb_spec nl f) as [Hf|Hf]; [specialize (Hge Hf)|specialize (Hle Hf)]; intuition lia.
    + rewrite (Hin (j - 1)%nat s f t H). destruct (Z.ltb_spec nl f) as [Hf|Hf]; [specialize (Hge Hf)|specialize (Hle Hf)]; intuition lia.
Qed.

Lemma rainv_region MAX a P f : rainv MAX a P -> f <= MAX -> exists r, nth_error (ra_regions a) (ra_index a f) = Some r /\ rg_ok 1 r.
Proof.
  intros (HL & HM & _ & Hok & _) Hf. pose proof (index_bound _ MAX f HM Hf) as Hi. fold (ra_index a f) in Hi.
  destruct (nth_error (ra_regions a) (ra_index a f)) as [r|] eqn:E; [|apply nth_error_None in E; lia]. exists r. split; [reflexivity|now apply (Hok _ _ E)].
Qed.

Lemma replace_region MAX a P f r : rainv MAX a P -> f <= MAX -> nth_error (ra_regions (ra_replace a (ra_index a f) r)) (ra_index a f) = Some r.
Proof.
  intros Ha Hf. destruct (rainv_region MAX a P f Ha Hf) as (r0 & E & _). destruct (nth_split_list _ _ _ E) as [_ Hl]. cbn [ra_regions ra_replace].
  now rewrite nth_error_mid, Hl, Nat.eqb_refl.
Qed.

Lemma rainv_op MAX a P o : rainv MAX a P -> Forall (fun e => fst e <= MAX /\ snd e < MAX) (op_edges o) -> (match o with Edges f _ => f <= MAX | _ => True end) ->
  exists a', ra_op MAX a o = Some a' /\ rainv MAX a' (fun x y => P x y \/ In (x, y) (op_edges o)).
Proof.
  intros Ha Ho Hf. rewrite Forall_forall in Ho. destruct o as [f t|f ts]; cbn [ra_op op_edges] in *.
  - specialize (Ho (f, t) (or_introl eq_refl)). cbn in Ho. destruct Ho as [Hfm Htm]. destruct (rainv_region MAX a P f Ha Hfm) as (r & E & Hr). unfold ra_insert. rewrite E. cbn [obind].
    apply (rainv_split MAX _ _ _ (rg_insert r (coord_streak [f; t]))); [|now apply (replace_region MAX a P)].
    apply (rainv_replace MAX a P); auto.
    + apply rg_insert_ok; auto.
    + intros x y [H|[H|[]]]; [auto|]. injection H as <- <-. auto.
    + intros r0 E0 x y. rewrite E in E0. injection E0 as <-. rewrite rg_insert_idx. destruct (insert_valid 1 (rg_idx r) (coord_streak [f; t]) (proj1 Hr) eq_refl) as [_ H]. rewrite (H [x; y] eq_refl).
      change (coord_streak [f; t]) with (coord_streak ([f] ++ [t])). rewrite coord_streak_snoc, in_streak_2d. destruct Ha as (_ & _ & _ & _ & Hin & _). rewrite (Hin _ _ x y E). split.
      * intros [H1|[-> H1]]; [auto|]. right. split; [reflexivity|]. right. left. f_equal. lia.
      * intros [H1|[-> [H1|[H1|[]]]]]; [auto|auto|]. injection H1 as <-. right. split; [reflexivity|lia].
  - destruct (rainv_region MAX a P f Ha Hf) as (r & E & Hr). unfold ra_insert_all. rewrite E. cbn [obind].
    set (l := map (fun to => coord_streak [f; to]) (stable_sort Z.ltb ts)).
    assert (Hd : dims_ok 1 l). { apply Forall_forall. intros s Hs. apply in_map_iff in Hs. now destruct Hs as (to & <- & _). }
    destruct (insert_new 1 l Hd) as [Hok1 Hin1]. change (rg_new 2) with (rg_new (S 1)). set (buf := rg_insert_all (rg_new (S 1)) l) in *.
    destruct (rg_union_assign_ok 1 r buf Hr Hok1) as (r' & -> & Hr' & Eu). cbn [obind].
    destruct (reg_union_assign_valid 1 _ _ (proj1 Hr) (proj1 Hok1)) as (u & Eu' & _ & Hu). rewrite Eu in Eu'. injection Eu' as <-.
    assert (Hbuf : forall x y, in_streaks l [x; y] <-> x = f /\ In y ts).
    { intros x y. unfold in_streaks. split.
      - intros (s & Hs & Hx). apply in_map_iff in Hs. destruct Hs as (to & <- & Hto). change [f; to] with ([f] ++ [to]) in Hx. rewrite coord_streak_snoc in Hx. apply in_streak_2d in Hx.
        destruct Hx as [-> Hx]. split; [reflexivity|]. replace y with to by lia. apply (Permutation_in _ (Permutation_sym (stable_sort_perm Z.ltb ts))). exact Hto.
      - intros [-> Hy]. exists (coord_streak [f; y]). split; [apply in_map_iff; exists y; split; [reflexivity|]; now apply (Permutation_in _ (stable_sort_perm Z.ltb ts))|].
        change (coord_streak [f; y]) with (coord_streak ([f] ++ [y])). rewrite coord_streak_snoc. apply in_streak_2d. lia. }
    apply (rainv_split MAX _ _ _ r'); [|now apply (replace_region MAX a P)]. apply (rainv_replace MAX a P); auto.
    + intros x y [H|H]; [auto|]. specialize (Ho _ H). apply in_map_iff in H. destruct H as (t & H & _). injection H as -> ->. cbn in Ho. right. split; [reflexivity|lia].
    + intros r0 E0 x y. rewrite E in E0. injection E0 as <-. rewrite (Hu [x; y] eq_refl), (Hin1 [x; y] eq_refl), Hbuf. destruct Ha as (_ & _ & _ & _ & Hin & _). rewrite (Hin _ _ x y E). split.
      * intros [H|[-> H]]; [auto|]. right. split; [reflexivity|]. right. apply in_map_iff. eauto.
      * intros [H|[-> [H|H]]]; [auto|auto|]. apply in_map_iff in H. destruct H as (t & H & Ht). injection H as ->. auto.
Qed.

Lemma rainv_ext MAX a P Q : (forall x y, P x y <-> Q x y) -> rainv MAX a P -> rainv MAX a Q.
Proof.
  intros H (HL & HM & Hmx & Hok & Hin & Hb). split; [exact HL|]. split; [exact HM|]. split; [exact Hmx|]. split; [exact Hok|]. split.
  - intros i r f t E. rewrite <- H. now apply Hin.
  - intros f t Hft. apply Hb. now apply H.
Qed.

Lemma rainv_ops MAX : forall os a P, rainv MAX a P -> Forall (fun e => fst e <= MAX /\ snd e < MAX) (edges os) -> Forall (fun o => match o with Edges f _ => f <= MAX | _ => True end) os ->
  exists a', ra_ops MAX a os = Some a' /\ rainv MAX a' (fun x y => P x y \/ In (x, y) (edges os)).
Proof.
  induction os as [|o os IH]; intros a P Ha He Hf; cbn [ra_ops edges flat_map] in *.
  - exists a. split; [reflexivity|]. apply (rainv_ext MAX a P); [|exact Ha]. intros x y. cbn. tauto.
  - apply Forall_app in He. destruct He as [He1 He2]. inversion Hf as [|? ? Hf1 Hf2]. subst. destruct (rainv_op MAX a P o Ha He1 Hf1) as (a1 & -> & Ha1). cbn [obind].
    destruct (IH a1 _ Ha1 He2 Hf2) as (a2 & E2 & Ha2). exists a2. split; [exact E2|]. apply (rainv_ext MAX a2 _ _) with (2 := Ha2). intros x y. rewrite in_app_iff. tauto.
Qed.

Lemma rainv_new MAX m : 0 <= m -> rainv MAX (ra_new MAX m) (fun _ _ => False).
Proof.
  intros Hm. split; [reflexivity|]. split; [now left|]. split; [exact Hm|]. split; [|split; [|tauto]].
  - intros [|[|i]] r E; try discriminate. injection E as <-. apply rg_new_ok.
  - intros [|[|i]] r f t E; try discriminate. injection E as <-. split; [|tauto]. intros H. exfalso. now apply (rin_empty 1 [f; t] eq_refl).
Qed.

(** ** Queries *)

Lemma sorted_lt_app {A} (R : A -> A -> Prop) (p m q : list A) : StronglySorted R (p ++ m ++ q) -> StronglySorted R m.
Proof.
  induction p as [|x p IH]; cbn [app]; intros H.
  - induction m as [|y m IHm]; [constructor|]. inversion H as [|? ? H1 H2]. subst. constructor; [now apply IHm|]. now apply Forall_app in H2.
  - inversion H. auto.
Qed.

Lemma mid_sorted (l : list streak) k : StronglySorted coord_lt (flat_map streak_coords l) -> Forall (fun s => s_pre s = [k]) l -> StronglySorted Z.lt (flat_map (fun s => zrange (s_x s) (s_e s)) l).
Proof.
  intros Hs Hl. assert (E : flat_map streak_coords l = map (fun t => [k; t]) (flat_map (fun s => zrange (s_x s) (s_e s)) l)).
  { clear Hs. induction Hl as [|s l Hk _ IH]; [reflexivity|]. cbn [flat_map]. rewrite map_app, IH. f_equal. unfold streak_coords. now rewrite Hk. }
  rewrite E in Hs. clear E Hl. induction (flat_map _ l) as [|x m IH]; [constructor|]. cbn [map] in Hs. inversion Hs as [|? ? H1 H2]. subst. constructor; [now apply IH|].
  rewrite Forall_map in H2. eapply Forall_impl; [|exact H2]. intros y Hy. cbn in Hy. lia.
Qed.

Lemma inside_last o0 o1 d0 d1 f t : in_box (mkBox [o0; o1] [d0; d1]) [f; t] -> o1 <= t < o1 + d1.
Proof. unfold in_box. cbn. lia. Qed.

Lemma ra_neighbors_spec MAX a P node acc : rainv MAX a P -> node <= MAX ->
  exists l, ra_neighbors a node acc = Some (acc ++ l) /\ StronglySorted Z.lt l /\ forall t, In t l <-> P node t.
Proof.
  intros Ha Hn. destruct (rainv_region MAX a P node Ha Hn) as (reg & E & Hr). unfold ra_neighbors. rewrite E. cbn [obind].
  destruct (rg_refresh_ok 1 reg Hr) as (reg' & -> & _ & Ei & _ & Eg). cbn [obind]. rewrite Ei.
  destruct (geometry_valid 1 (rg_idx reg) (proj1 Hr)) as (b & cs & Eg' & _ & _ & Hbox & _). rewrite Eg in Eg'. injection Eg' as <- _.
  destruct Hbox as (L1 & L2 & Hin & _). destruct (rg_box reg') as [[|o0 [|o1 [|]]] [|d0 [|d1 [|]]]]; try discriminate. cbn [b_origin b_dim last].
  assert (Hb : forall f t, rin (rg_idx reg) [f; t] -> o1 <= t < o1 + d1). { intros f t H. apply (inside_last o0 o1 d0 d1 f t). now apply Hin. }
  assert (HP : forall t, rin (rg_idx reg) [node; t] <-> P node t). { intros t. destruct Ha as (_ & _ & _ & _ & HI & _). rewrite (HI _ _ node t E). tauto. }
  clear Hin Eg Ei E. destruct Hr as [Hv _]. set (r := rg_idx reg) in *. clearbody r.
  destruct (streaks_valid 1 r Hv) as (l & Hlok & Hlin & El & _ & Hlp).
  assert (Hlen : length l = reg_num_streaks r) by (unfold reg_num_streaks; rewrite <- Hlp; now rewrite map_length).
  destruct (seek_2d r node o1 Hv) as (b1 & p1 & q1 & -> & E1 & _ & A1 & B1 & At1). destruct (seek_2d r node (o1 + d1) Hv) as (b2 & p2 & q2 & -> & E2 & _ & A2 & B2 & At2). cbn [obind].
  rewrite El in E1, E2. injection E1 as E1. injection E2 as E2.
  assert (Hst : forall s, In s l -> exists k, s = mkStreak [k] (s_x s) (s_e s) /\ s_x s < s_e s /\ o1 <= s_x s < o1 + d1).
  { intros s Hsl. destruct (streak_2d 1 l s Hlok eq_refl Hsl) as (k & Ek & Hx). exists k. split; [exact Ek|]. split; [exact Hx|]. apply (Hb k). apply Hlin; [reflexivity|].
    exists s. split; [exact Hsl|]. rewrite Ek. apply in_streak_2d. cbn. lia. }
  assert (K : forall s k, s = mkStreak [k] (s_x s) (s_e s) -> s_origin s = [k; s_x s]) by (intros s k Ek; rewrite Ek; reflexivity).
  assert (P1 : forall s, In s p1 -> forall k, s = mkStreak [k] (s_x s) (s_e s) -> k < node).
  { intros s Hs k Ek. assert (Hsl : In s l) by (rewrite E1; apply in_app_iff; auto). destruct (Hst s Hsl) as (_ & _ & _ & Hx). specialize (A1 s Hs). rewrite (K s k Ek) in A1. cbn in A1. lia. }
  assert (Q1 : forall s, In s q1 -> forall k, s = mkStreak [k] (s_x s) (s_e s) -> node <= k).
  { intros s Hs k Ek. specialize (B1 s Hs). rewrite (K s k Ek) in B1. cbn in B1. lia. }
  assert (P2 : forall s, In s p2 -> forall k, s = mkStreak [k] (s_x s) (s_e s) -> k <= node).
  { intros s Hs k Ek. specialize (A2 s Hs). rewrite (K s k Ek) in A2. cbn in A2. lia. }
  assert (Q2 : forall s, In s q2 -> forall k, s = mkStreak [k] (s_x s) (s_e s) -> node < k).
  { intros s Hs k Ek. assert (Hsl : In s l) by (rewrite E2; apply in_app_iff; auto). destruct (Hst s Hsl) as (_ & _ & _ & Hx). specialize (B2 s Hs). rewrite (K s k Ek) in B2. cbn in B2. lia. }
  assert (Hmid : exists mid, p2 = p1 ++ mid /\ q1 = mid ++ q2).
  { assert (HE : p1 ++ q1 = p2 ++ q2) by congruence. apply app_eq_app in HE. destruct HE as (m & [[Ea Eb]|[Ea Eb]]).
    - (* p1 is longer: m is both below and above *)
      destruct m as [|s m]; [exists []; rewrite app_nil_r in *; cbn in *; subst; auto|]. exfalso.
      assert (Hs1 : In s p1) by (rewrite Ea; apply in_app_iff; right; now left). assert (Hs2 : In s q2) by (rewrite Eb; now left).
      assert (Hsl : In s l) by (rewrite E1; apply in_app_iff; auto). destruct (Hst s Hsl) as (k & Ek & _). specialize (P1 s Hs1 k Ek). specialize (Q2 s Hs2 k Ek). lia.
    - exists m. auto. }
  destruct Hmid as (mid & Ep2 & Eq1).
  rewrite (run_between 1 r l Hv El (length mid) (length p1) (length p2) b1 b2 (reg_num_streaks r) At1 At2) by (rewrite <- ?Hlen, ?E1, ?Ep2, ?Eq1, ?app_length; lia).
  cbn [option_map]. rewrite E1, skipn_app_exact, Eq1, firstn_app, firstn_all, Nat.sub_diag by reflexivity. cbn [firstn]. rewrite app_nil_r.
  eexists. split; [reflexivity|]. assert (Hk : Forall (fun s => s_pre s = [node]) mid).
  { apply Forall_forall. intros s Hs. assert (Hs1 : In s q1) by (rewrite Eq1; apply in_app_iff; auto). assert (Hs2 : In s p2) by (rewrite Ep2; apply in_app_iff; auto).
    assert (Hsl : In s l) by (rewrite E1; apply in_app_iff; auto). destruct (Hst s Hsl) as (k & Ek & _). specialize (Q1 s Hs1 k Ek). specialize (P2 s Hs2 k Ek). replace node with k by lia. now rewrite Ek. }
  split.
  - apply (mid_sorted _ node); [|exact Hk]. pose proof (coords_sorted 1 l Hlok) as H. rewrite E1, Eq1, !flat_map_app in H. now apply sorted_lt_app in H.
  - intros t. rewrite <- HP, (Hlin [node; t] eq_refl), in_flat_map. unfold in_streaks. rewrite Forall_forall in Hk. split.
    + intros (s & Hs & Ht). apply zrange_in in Ht. exists s. split; [rewrite E1, Eq1; rewrite !in_app_iff; auto|]. apply (in_streak_snoc s [node]). split; [symmetry; now apply Hk|lia].
    + intros (s & Hs & Ht). apply (in_streak_snoc s [node]) in Ht. destruct Ht as [Hp Ht]. exists s. split; [|apply zrange_in; lia]. rewrite E1, Eq1, !in_app_iff in Hs. destruct (Hst s) as (k & Ek & _).
      { rewrite E1, Eq1, !in_app_iff. exact Hs. } assert (k = node) by (rewrite Ek in Hp; cbn in Hp; congruence). subst k.
      destruct Hs as [Hs|[Hs|Hs]]; [specialize (P1 s Hs node Ek); lia|exact Hs|specialize (Q2 s Hs node Ek); lia].
Qed.

(** Number of edges. *)
Lemma ra_sum_spec : forall rs (P : nat -> Z -> Z -> Prop), (forall i r, nth_error rs i = Some r -> rg_ok 1 r /\ forall f t, rin (rg_idx r) [f; t] <-> P i f t) ->
  (forall i j f t, P i f t -> P j f t -> i = j) ->
  exists es, ra_sum rs = Some (Z.of_nat (length es)) /\ NoDup es /\ forall e, In e es <-> exists i, (i < length rs)%nat /\ P i (fst e) (snd e).
Proof.
  induction rs as [|r rs IH]; intros P Hr HP; cbn [ra_sum].
  - exists []. split; [reflexivity|]. split; [constructor|]. intros e. split; [intros []|]. intros (i & Hi & _). cbn in Hi. lia.
  - destruct (Hr 0%nat r eq_refl) as [Hok Hin]. destruct (rg_refresh_ok 1 r Hok) as (r' & -> & _ & _ & _ & Eg). cbn [obind].
    destruct (geometry_valid 1 (rg_idx r) (proj1 Hok)) as (b & cs & Eg' & Hs & Hcs & _). rewrite Eg in Eg'. injection Eg' as _ Hsz.
    destruct (IH (fun i => P (S i))) as (es & -> & Hnd & Hes).
    { intros i r0 H0. apply (Hr (S i) r0 H0). }
    { intros i j f t H1 H2. specialize (HP _ _ f t H1 H2). lia. }
    set (g := fun c : coord => (nth 0 c 0, nth 1 c 0)). exists (map g cs ++ es). cbn [option_map]. split; [f_equal; rewrite Hsz, app_length, map_length; lia|].
    assert (Hg : forall e, In e (map g cs) <-> P 0%nat (fst e) (snd e)).
    { intros [f t]. cbn [fst snd]. rewrite in_map_iff, <- Hin. split.
      - intros (c & Ec & Hc). apply Hcs in Hc. destruct Hc as [Hl Hc]. destruct c as [|x [|y [|]]]; try discriminate. unfold g in Ec. cbn in Ec. injection Ec as -> ->. exact Hc.
      - intros H. exists [f; t]. split; [reflexivity|]. apply Hcs. auto. }
    split.
    + assert (Hnc : NoDup cs).
      { clear - Hs. induction Hs as [|c cs _ IH Hc]; constructor; auto. intros Hi. rewrite Forall_forall in Hc. specialize (Hc c Hi). clear - Hc. induction c as [|x c IH]; cbn in Hc; [contradiction|]. destruct Hc as [H|[_ H]]; [lia|auto]. }
      assert (Hgi : forall l, (forall c, In c l -> length c = 2%nat) -> NoDup l -> NoDup (map g l)).
      { clear. intros l Hl Hn. induction Hn as [|c l Hc _ IH]; cbn [map]; constructor; [|apply IH; intros; apply Hl; now right]. intros Hi. apply in_map_iff in Hi. destruct Hi as (c' & E & Hc'). apply Hc.
        assert (L1 := Hl c (or_introl eq_refl)). assert (L2 := Hl c' (or_intror Hc')). destruct c as [|x [|y [|]]], c' as [|x' [|y' [|]]]; try discriminate. unfold g in E. cbn in E. now injection E as <- <-. }
      assert (Hn1 : NoDup (map g cs)). { apply Hgi; [|exact Hnc]. intros c Hc. now apply Hcs in Hc. }
      assert (Happ : forall l1 l2 : list (Z * Z), NoDup l1 -> NoDup l2 -> (forall e, In e l1 -> In e l2 -> False) -> NoDup (l1 ++ l2)).
      { clear. intros l1 l2 H1 H2 Hd. induction H1 as [|x l1 Hx _ IH]; [exact H2|]. cbn [app]. constructor; [|apply IH; intros e He; apply Hd; now right].
        rewrite in_app_iff. intros [H|H]; [contradiction|]. apply (Hd x); [now left|exact H]. }
      apply Happ; auto. intros e H1 H2. apply Hg in H1. apply Hes in H2. destruct H2 as (i & _ & H2). specialize (HP _ _ _ _ H1 H2). discriminate.
    + intros e. rewrite in_app_iff, Hg, Hes. split.
      * intros [H|(i & Hi & H)]; [exists 0%nat; split; [cbn; lia|exact H]|exists (S i); split; [cbn; lia|exact H]].
      * intros ([|i] & Hi & H); [auto|right; exists i; split; [cbn in Hi; lia|exact H]].
Qed.

Lemma ra_size_spec MAX a P : rainv MAX a P -> exists es, ra_size a = Some (Z.of_nat (length es)) /\ NoDup es /\ forall e, In e es <-> P (fst e) (snd e).
Proof.
  intros (HL & HM & _ & Hok & Hin & Hb). destruct (ra_sum_spec (ra_regions a) (fun i f t => ra_index a f = i /\ P f t)) as (es & E & Hnd & Hes).
  - intros i r Hi. split; [now apply (Hok i)|]. intros f t. now apply Hin.
  - intros i j f t [<- _] [<- _]. reflexivity.
  - exists es. split; [exact E|]. split; [exact Hnd|]. intros e. rewrite Hes. split; [intros (i & _ & _ & H); exact H|]. intros H. exists (ra_index a (fst e)). split; [|auto].
    rewrite HL. apply (index_bound _ MAX); [exact HM|]. now apply (Hb _ (snd e)).
Qed.
