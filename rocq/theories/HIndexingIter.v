(** The iterators of H-indexing. *)
From Verif Require Import Base ListFacts RegionSpec RegionModel RegionRep RegionIterModel
  CoordModel CoordSpec RegionOpsModel RegionOps CoordFacts RegionHistory RegionHist RegionReach PartitionSpec PartitionModel
  PartitionFacts StripingFacts CheckerFacts BisectionFacts SfcModel SfcFacts ZcurveFacts HilbertFacts HIndexingModel HIndexingFacts.

Lemma zadd_assoc' : forall a b c, zadd (zadd a b) c = zadd a (zadd b c).
Proof. induction a as [|x a IH]; intros [|y b] [|z c]; cbn [zadd]; auto. rewrite IH, Z.add_assoc. reflexivity. Qed.

Definition tshift (p : coord) (t : tri) : tri := mkTri (t_cnt t) (t_type t) (t_dim t) (zadd p (t_org t)).

Lemma htravel_shift p t : htravel (tshift p t) = map (zadd p) (htravel t).
Proof.
  unfold htravel, hall. change (tvol (tshift p t)) with (tvol t). generalize (Z.to_nat (tvol t)) as fuel. intros fuel. revert t.
  assert (HL : forall t, hline (tshift p t) = map (zadd p) (hline t)).
  { intros t. unfold hline. cbn [tshift t_dim t_type t_org]. destruct (t_dim t) as [|y [|x [|]]]; auto.
    destruct (Nat.odd (t_type t)); auto. destruct (t_type t =? 0)%nat, (1 <? x); rewrite map_map; apply map_ext; intros k; now rewrite !zadd_assoc'. }
  induction fuel as [|fuel IH]; intros t; cbn [hfold]; cbn [tshift t_dim]; destruct (has_trivial (t_dim t)); auto.
  rewrite <- flat_map_map. apply flat_map_ext_in. intros i _. rewrite <- IH. f_equal.
  unfold tri_sub, tshift. cbn [t_cnt t_type t_dim t_org]. now rewrite zadd_assoc'.
Qed.

Lemma htravel_cnt k k' f d o : htravel (mkTri k f d o) = htravel (mkTri k' f d o).
Proof. unfold htravel, hall, tvol. cbn [t_dim]. destruct (Z.to_nat (prod d)); reflexivity. Qed.

Lemma htravel_bump t : htravel (bump t) = htravel t.
Proof. destruct t. apply htravel_cnt. Qed.

Lemma leaves_bump t : leaves (bump t) = leaves t.
Proof. destruct t as [k f d o]. unfold leaves, bump, hall, tvol. cbn [t_dim t_cnt t_type t_org]. destruct (Z.to_nat (prod d)); reflexivity. Qed.

Section Iter.
Variables mx my : Z.
Variable cache : coord -> nat -> list coord.
Hypothesis cache_ok : forall t, tgood t -> has_trivial (t_dim t) = false -> hi_cached mx my (t_dim t) = true ->
  map (zadd (t_org t)) (cache (t_dim t) (t_type t)) = htravel t.

(** ** The lowest level *)

Definition lv_ok (cur : coord) (l : hi_level) : Prop :=
  match l with
  | HTrivial _ dir cnt _ => length cur = 2%nat /\ length dir = 2%nat /\ 0 <= cnt
  | HCached _ _ => True
  end.

Definition lv_rest (cur : coord) (l : hi_level) : list coord :=
  match l with
  | HTrivial type dir cnt len =>
      if Nat.odd type then []
      else
        let start := if cnt =? 0 then (if (type =? 0)%nat then zadd cur [-1; 0] else cur) else zadd cur dir in
        map (fun k => zadd start (map (Z.mul (Z.of_nat k)) dir)) (seq 0 (Z.to_nat (len - cnt)))
  | HCached o rest => map (zadd o) rest
  end.

Lemma finished_rest cur l : hi_finished l = true -> lv_rest cur l = [].
Proof.
  destruct l as [type dir cnt len|o rest]; cbn [hi_finished lv_rest].
  - destruct (Nat.odd type); auto. cbn [orb]. intros H. replace (Z.to_nat (len - cnt)) with O by lia. reflexivity.
  - destruct rest; [reflexivity|discriminate].
Qed.

Lemma zadd_mul dir k : zadd dir (map (Z.mul (Z.of_nat k)) dir) = map (Z.mul (Z.of_nat (S k))) dir.
Proof. induction dir as [|x dir IH]; cbn [zadd map]; auto. rewrite IH. f_equal. lia. Qed.

Lemma zadd_zero : forall cur dir, length cur = length dir -> zadd cur (map (Z.mul (Z.of_nat 0)) dir) = cur.
Proof. induction cur as [|x cur IH]; intros [|y dir] H; try discriminate; cbn [zadd map]; auto. rewrite IH by (cbn in H; lia). f_equal. lia. Qed.

Lemma step_rest cur l stack : lv_ok cur l -> hi_finished l = false ->
  exists c l', hi_step cur l stack = HAt c l' stack /\ lv_ok c l' /\ lv_rest cur l = c :: lv_rest c l'.
Proof.
  destruct l as [type dir cnt len|o rest]; cbn [hi_finished lv_rest hi_step lv_ok].
  - intros (H1 & H2 & H3) Hf. apply orb_false_elim in Hf. destruct Hf as [Ho Hl]. rewrite Ho.
    set (start := if cnt =? 0 then (if (type =? 0)%nat then zadd cur [-1; 0] else cur) else zadd cur dir).
    assert (Hs : length start = 2%nat).
    { unfold start. destruct cur as [|a [|b [|]]]; try discriminate. destruct dir as [|a' [|b' [|]]]; try discriminate.
      destruct (cnt =? 0), (type =? 0)%nat; reflexivity. }
    do 2 eexists. split; [reflexivity|]. cbn [lv_rest lv_ok]. rewrite Ho. split; [split; [|split]; auto; lia|].
    replace (Z.to_nat (len - cnt)) with (S (Z.to_nat (len - (cnt + 1)))) by lia.
    cbn [seq map]. rewrite zadd_zero by lia. f_equal. rewrite <- seq_shift, map_map. apply map_ext. intros k.
    replace (cnt + 1 =? 0) with false by lia. now rewrite zadd_assoc', zadd_mul.
  - intros _ Hf. destruct rest as [|c rest]; [discriminate|]. do 2 eexists. split; [reflexivity|]. cbn [lv_rest lv_ok]. split; auto.
Qed.

Lemma enter_spec cur t rem : tgood t -> has_trivial (t_dim t) || hi_cached mx my (t_dim t) = true ->
  0 <= rem -> (has_trivial (t_dim t) = true -> rem = 0) ->
  exists c l, hi_enter cache cur t rem = (c, l) /\ lv_ok c l /\ lv_rest c l = skipn (Z.to_nat rem) (htravel t).
Proof.
  intros Hg Hc Hr Ht0. unfold hi_enter. destruct (has_trivial (t_dim t)) eqn:Ht.
  - rewrite (Ht0 eq_refl). cbn [Z.to_nat skipn]. unfold htravel. rewrite hall_triv by auto.
    destruct Hg as (k & f & y & x & oy & ox & -> & Hy & Hx & Hf). unfold hi_trivial, hline. cbn [t_dim t_org t_type].
    do 2 eexists. split; [reflexivity|]. destruct (1 <? x); cbn [lv_ok lv_rest]; (split; [split; [|split]; auto; lia|]);
      destruct (Nat.odd f); auto; rewrite Z.eqb_refl, Z.sub_0_r; apply map_ext; intros n; cbn [map]; f_equal; destruct (f =? 0)%nat; two.
  - unfold hi_from_cache. do 2 eexists. split; [reflexivity|]. cbn [lv_ok lv_rest]. split; auto. rewrite <- cache_ok by auto. now rewrite skipn_map.
Qed.

(** ** The stack *)

Definition from (t : tri) (c : nat) : list coord := flat_map (fun i => htravel (tri_sub t i)) (seq c (4 - c)).
Definition from_lv (t : tri) (c : nat) : nat := list_sum (map (fun i => leaves (tri_sub t i)) (seq c (4 - c))).

Definition frame_ok (t : tri) : Prop :=
  tgood t /\ (t_cnt t = -1 \/ (0 <= t_cnt t <= 3 /\ has_trivial (t_dim t) = false /\ hi_cached mx my (t_dim t) = false)).

Definition frame_rest (t : tri) : list coord := if t_cnt t =? -1 then htravel t else from t (S (Z.to_nat (t_cnt t))).
Definition frame_lv (t : tri) : nat := if t_cnt t =? -1 then leaves t else from_lv t (S (Z.to_nat (t_cnt t))).

Definition frames (stk : list tri) : list coord := flat_map frame_rest stk.
Definition frames_lv (stk : list tri) : nat := list_sum (map frame_lv stk).

Lemma from_all t : tgood t -> has_trivial (t_dim t) = false -> htravel t = from t 0.
Proof. intros Hg Ht. unfold htravel, from. now rewrite hall_rec. Qed.

Lemma from_lv_all t : tgood t -> has_trivial (t_dim t) = false -> leaves t = from_lv t 0.
Proof.
  intros Hg Ht. unfold leaves, from_lv. rewrite hall_rec by auto. cbn [flat_map seq map list_sum fold_right Nat.sub].
  rewrite !app_length. cbn [length]. unfold leaves. lia.
Qed.

Lemma from_S t c : (c < 4)%nat -> from t c = htravel (tri_sub t c) ++ from t (S c).
Proof. intros H. unfold from. replace (4 - c)%nat with (S (4 - S c)) by lia. reflexivity. Qed.

Lemma from_lv_S t c : (c < 4)%nat -> from_lv t c = (leaves (tri_sub t c) + from_lv t (S c))%nat.
Proof. intros H. unfold from_lv. replace (4 - c)%nat with (S (4 - S c)) by lia. reflexivity. Qed.

Lemma from_4 t : from t 4 = [].
Proof. reflexivity. Qed.

(** What [digDown] is about to traverse. *)
Definition cur_rest (t : tri) : list coord := if t_cnt t =? 0 then htravel t else from t (Z.to_nat (t_cnt t)).
Definition cur_lv (t : tri) : nat := if t_cnt t =? 0 then leaves t else from_lv t (Z.to_nat (t_cnt t)).
Definition cur_ok (t : tri) : Prop :=
  tgood t /\ (t_cnt t = 0 \/ (1 <= t_cnt t <= 3 /\ has_trivial (t_dim t) = false /\ hi_cached mx my (t_dim t) = false)).

Lemma dig_up_spec V : forall stk, Forall frame_ok stk -> Forall (fun t => tvol t <= V) stk ->
  match hi_dig_up stk with
  | None => frames stk = []
  | Some (t, stk') => cur_ok t /\ tvol t <= V /\ Forall frame_ok stk' /\ Forall (fun t => tvol t <= V) stk' /\
      frames stk = cur_rest t ++ frames stk' /\ frames_lv stk = (cur_lv t + frames_lv stk')%nat
  end.
Proof.
  induction stk as [|t stk IH]; intros Hs HV; cbn [hi_dig_up]; [reflexivity|].
  apply Forall_cons_iff' in Hs. destruct Hs as [Ht Hs]. apply Forall_cons_iff' in HV. destruct HV as [Hv HV].
  destruct Ht as [Hg Ht]. unfold frames, frames_lv. cbn [flat_map map list_sum fold_right]. fold (frames stk) (frames_lv stk).
  destruct (Z.eqb_spec (t_cnt t + 1) 4) as [E|E].
  - specialize (IH Hs HV). unfold frame_rest, frame_lv. replace (t_cnt t =? -1) with false by lia.
    replace (S (Z.to_nat (t_cnt t))) with 4%nat by lia. exact IH.
  - split; [|split; [exact Hv|split; [exact Hs|split; [exact HV|]]]].
    + split; [destruct Hg as (k & f & y & x & oy & ox & -> & Hr); do 6 eexists; split; [reflexivity|exact Hr]|].
      cbn [bump t_cnt t_dim]. destruct Ht as [->|(Hc & Hn)]; [left; lia|right; split; auto; lia].
    + unfold cur_rest, cur_lv, frame_rest, frame_lv. cbn [bump t_cnt]. fold (bump t). destruct Ht as [E1|(Hc & Hn & _)].
      * rewrite E1. cbn [Z.eqb Z.add Pos.add Z.pos_sub]. now rewrite htravel_bump, leaves_bump.
      * replace (t_cnt t =? -1) with false by lia. replace (t_cnt t + 1 =? 0) with false by lia.
        replace (Z.to_nat (t_cnt t + 1)) with (S (Z.to_nat (t_cnt t))) by lia. split; reflexivity.
Qed.

Lemma dig_down0 V : forall fuel t cur stk, tgood t -> t_cnt t = 0 -> tvol t <= Z.of_nat fuel -> tvol t <= V ->
  Forall frame_ok stk -> Forall (fun t => tvol t <= V) stk ->
  exists c l stk', hi_dig_down mx my cache fuel cur t stk = Some (HAt c l stk') /\ lv_ok c l /\
    Forall frame_ok stk' /\ Forall (fun t => tvol t <= V) stk' /\
    lv_rest c l ++ frames stk' = htravel t ++ frames stk /\ (frames_lv stk' + 1 <= leaves t + frames_lv stk)%nat.
Proof.
  induction fuel as [|fuel IH]; intros t cur stk Hg H0 Hf HV Hs Hsv; pose proof (tvol_pos t Hg); [lia|]. cbn [hi_dig_down].
  destruct (has_trivial (t_dim t) || hi_cached mx my (t_dim t)) eqn:Hc.
  - destruct (enter_spec cur t 0 Hg Hc ltac:(lia) ltac:(auto)) as (c & l & E & Hl & Hr). rewrite E.
    exists c, l, stk. repeat split; auto. + now rewrite Hr. + pose proof (leaves_ge1 t Hg). lia.
  - apply orb_false_elim in Hc. destruct Hc as [Ht Hc]. destruct (sub_spec t 0 Hg Ht ltac:(lia)) as (G & Vl & C0).
    unfold next_sub. rewrite H0. change (Z.to_nat 0) with 0%nat.
    destruct (IH (tri_sub t 0) cur (t :: stk) G C0) as (c & l & stk' & E & Hl & Hs' & Hv' & Hr & Hlv); try lia.
    + constructor; auto. split; auto. right. split; auto. lia.
    + constructor; auto.
    + exists c, l, stk'. split; [exact E|]. split; [exact Hl|]. split; [exact Hs'|]. split; [exact Hv'|].
      unfold frames in Hr at 2. unfold frames_lv in Hlv at 2. cbn [flat_map map list_sum fold_right] in Hr, Hlv.
      fold (frames stk) in Hr. fold (list_sum (map frame_lv stk)) in Hlv. fold (frames_lv stk) in Hlv. unfold frame_rest, frame_lv in Hr, Hlv.
      rewrite H0 in Hr, Hlv. cbn [Z.eqb] in Hr, Hlv. change (Z.to_nat 0) with 0%nat in Hr, Hlv.
      rewrite (from_all t) by auto. rewrite (from_lv_all t) by auto. rewrite (from_S t 0), (from_lv_S t 0) by lia.
      rewrite <- app_assoc. split; [exact Hr|lia].
Qed.

Lemma dig_down_spec V fuel t cur stk : cur_ok t -> tvol t <= Z.of_nat fuel -> tvol t <= V ->
  Forall frame_ok stk -> Forall (fun t => tvol t <= V) stk ->
  exists c l stk', hi_dig_down mx my cache fuel cur t stk = Some (HAt c l stk') /\ lv_ok c l /\
    Forall frame_ok stk' /\ Forall (fun t => tvol t <= V) stk' /\
    lv_rest c l ++ frames stk' = cur_rest t ++ frames stk /\ (frames_lv stk' + 1 <= cur_lv t + frames_lv stk)%nat.
Proof.
  intros [Hg Hc] Hf HV Hs Hsv. unfold cur_rest, cur_lv. destruct (Z.eqb_spec (t_cnt t) 0) as [E|E].
  - now apply dig_down0.
  - destruct Hc as [?|(Hc & Ht & Hcd)]; [lia|]. pose proof (tvol_pos t Hg). destruct fuel as [|fuel]; [lia|]. cbn [hi_dig_down].
    rewrite Ht, Hcd. cbn [orb]. destruct (sub_spec t (Z.to_nat (t_cnt t)) Hg Ht ltac:(lia)) as (G & Vl & C0). unfold next_sub.
    destruct (dig_down0 V fuel (tri_sub t (Z.to_nat (t_cnt t))) cur (t :: stk) G C0) as (c & l & stk' & Ed & Hl & Hs' & Hv' & Hr & Hlv); try lia.
    + constructor; auto. split; auto. right. split; auto. lia.
    + constructor; auto.
    + exists c, l, stk'. split; [exact Ed|]. split; [exact Hl|]. split; [exact Hs'|]. split; [exact Hv'|].
      unfold frames in Hr at 2. unfold frames_lv in Hlv at 2. cbn [flat_map map list_sum fold_right] in Hr, Hlv.
      fold (frames stk) in Hr. fold (list_sum (map frame_lv stk)) in Hlv. fold (frames_lv stk) in Hlv. unfold frame_rest, frame_lv in Hr, Hlv.
      replace (t_cnt t =? -1) with false in Hr, Hlv by lia.
      rewrite (from_S t (Z.to_nat (t_cnt t))), (from_lv_S t (Z.to_nat (t_cnt t))) by lia.
      rewrite <- app_assoc. split; [exact Hr|lia].
Qed.

(** ** Incrementing *)

Variable origin : coord.
Variable V : Z.
Variable F : nat.

(** The iterator stands at the head of the list, or at the end. *)
Definition st (it : hi_iter) (L : list coord) : Prop :=
  match L with
  | [] => it = HEnd origin
  | c :: rest => exists l stk, it = HAt c l stk /\ lv_ok c l /\ Forall frame_ok stk /\ Forall (fun t => tvol t <= V) stk /\
      Z.of_nat (frames_lv stk) + V < Z.of_nat F /\ rest = lv_rest c l ++ frames stk
  end.

Lemma next_raw : 0 <= V -> forall fuel cur l stk, lv_ok cur l -> Forall frame_ok stk -> Forall (fun t => tvol t <= V) stk ->
  Z.of_nat (frames_lv stk) + V < Z.of_nat fuel -> (fuel <= F)%nat ->
  exists it, hi_next mx my cache fuel origin (HAt cur l stk) = Some it /\ st it (lv_rest cur l ++ frames stk).
Proof.
  intros HV0. induction fuel as [|fuel IH]; intros cur l stk Hl Hs Hv Hf HF; [lia|]. cbn [hi_next].
  destruct (hi_finished l) eqn:Hfin.
  - rewrite (finished_rest cur l Hfin). cbn [app]. pose proof (dig_up_spec V stk Hs Hv) as Hu.
    destruct (hi_dig_up stk) as [[t stk']|].
    + destruct Hu as (Hc & HtV & Hs' & Hv' & Hr & Hlv).
      destruct (dig_down_spec V (S fuel) t cur stk' Hc ltac:(lia) HtV Hs' Hv') as (c & l' & stk2 & E & Hl' & Hs2 & Hv2 & Hr2 & Hlv2).
      rewrite E. cbn [obind]. destruct (IH c l' stk2 Hl' Hs2 Hv2 ltac:(lia) ltac:(lia)) as (it & En & Hst).
      exists it. split; [exact En|]. rewrite Hr, <- Hr2. exact Hst.
    + exists (HEnd origin). split; auto. rewrite Hu. reflexivity.
  - destruct (step_rest cur l stk Hl Hfin) as (c & l' & E & Hl' & Hr). rewrite E. eexists. split; [reflexivity|].
    rewrite Hr. cbn [app st]. exists l', stk. repeat split; auto. lia.
Qed.

Lemma next_st it c L : 0 <= V -> st it (c :: L) -> hi_deref it = c /\ exists it', hi_next mx my cache F origin it = Some it' /\ st it' L.
Proof.
  intros HV0 (l & stk & -> & Hl & Hs & Hv & HF & ->). split; [reflexivity|]. apply next_raw; auto.
Qed.

Lemma eqb_st it it' c L c' L' : st it (c :: L) -> st it' (c' :: L') -> hi_eqb it it' = coord_eqb c c'.
Proof. intros (l & stk & -> & _) (l' & stk' & -> & _). reflexivity. Qed.

Lemma range_st : 0 <= V -> forall A B i e g, NoDup (A ++ B) -> st i (A ++ B) -> st e B -> (length A <= g)%nat ->
  iter_range (hi_next mx my cache F origin) hi_eqb hi_deref g i e = Some A.
Proof.
  intros HV0. induction A as [|a A IH]; intros B i e g Hn Hi He Hg; cbn [app] in *.
  - assert (Eq : hi_eqb i e = true).
    { destruct B as [|b B].
      - cbn [st] in Hi, He. subst i e. cbn [hi_eqb]. apply coord_eqb_refl.
      - rewrite (eqb_st _ _ _ _ _ _ Hi He). apply coord_eqb_refl. }
    destruct g; cbn [iter_range]; now rewrite Eq.
  - cbn [length] in Hg. destruct g as [|g]; [lia|]. cbn [iter_range].
    inversion Hn as [|? ? Hni Hnd]; subst.
    assert (Eq : hi_eqb i e = false).
    { destruct B as [|b B].
      - cbn [st] in He. subst e. destruct Hi as (l & stk & -> & _). reflexivity.
      - rewrite (eqb_st _ _ _ _ _ _ Hi He). destruct (coord_eqb a b) eqn:E; auto. apply coord_eqb_spec in E. subst b.
        exfalso. apply Hni. apply in_or_app. right. now left. }
    rewrite Eq. destruct (next_st i a (A ++ B) HV0 Hi) as (Hd & i' & En & Hi'). rewrite En. cbn [obind].
    rewrite (IH B i' e g Hnd Hi' He ltac:(lia)). cbn [obind]. now rewrite Hd.
Qed.

(** ** Positioning *)

Variable aspect : tri -> Prop.
Hypothesis asp_nt : forall t, aspect t -> has_trivial (t_dim t) = false.
Hypothesis asp_sub : forall t i, tgood t -> aspect t -> hi_cached mx my (t_dim t) = false -> (i < 4)%nat -> aspect (tri_sub t i).

Lemma skip_spec fuel t : tgood t -> has_trivial (t_dim t) = false -> tvol t <= Z.of_nat fuel ->
  forall n i rem, (i + n = 4)%nat -> 0 <= rem < Z.of_nat (length (from t i)) ->
  exists j rem', hi_skip fuel t (seq i n) rem = Some ([tri_sub t j; mkTri (Z.of_nat j) (t_type t) (t_dim t) (t_org t)], rem') /\
    (i <= j < 4)%nat /\ 0 <= rem' < Z.of_nat (length (htravel (tri_sub t j))) /\ (rem = 0 -> rem' = 0) /\
    skipn (Z.to_nat rem) (from t i) = skipn (Z.to_nat rem') (htravel (tri_sub t j)) ++ from t (S j).
Proof.
  intros Hg Ht Hf. induction n as [|n IH]; intros i rem Hi Hr.
  - replace i with 4%nat in Hr by lia. rewrite from_4 in Hr. cbn [length] in Hr. lia.
  - cbn [seq hi_skip]. destruct (sub_spec t i Hg Ht ltac:(lia)) as (G & Vl & _). rewrite tri_length_spec by (auto; lia). cbn [obind].
    rewrite from_S in Hr |- * by lia. rewrite app_length in Hr.
    destruct (Z.leb_spec (Z.of_nat (length (htravel (tri_sub t i)))) rem) as [L|L].
    + destruct (IH (S i) (rem - Z.of_nat (length (htravel (tri_sub t i)))) ltac:(lia) ltac:(lia)) as (j & rem' & E & Hj & Hr' & H0 & Hk).
      exists j, rem'. split; [exact E|]. split; [lia|]. split; [exact Hr'|]. split; [lia|].
      rewrite <- Hk. rewrite skipn_app, skipn_all2 by lia. cbn [app]. f_equal. lia.
    + exists i, rem. split; [reflexivity|]. split; [lia|]. split; [lia|]. split; [auto|].
      rewrite skipn_app. replace (Z.to_nat rem - length (htravel (tri_sub t i)))%nat with 0%nat by lia. reflexivity.
Qed.

Lemma locate_spec : forall fuel t rem stk, tgood t -> tvol t <= Z.of_nat fuel -> tvol t <= V -> Forall frame_ok stk -> Forall (fun t => tvol t <= V) stk ->
  0 <= rem < Z.of_nat (length (htravel t)) -> rem = 0 \/ aspect t ->
  exists c l stk', hi_locate mx my cache fuel origin (t :: stk) rem = Some (HAt c l stk') /\ lv_ok c l /\
    Forall frame_ok stk' /\ Forall (fun t => tvol t <= V) stk' /\
    lv_rest c l ++ frames stk' = skipn (Z.to_nat rem) (htravel t) ++ frames stk /\ (frames_lv stk' + 1 <= leaves t + frames_lv stk)%nat.
Proof.
  induction fuel as [|fuel IH]; intros t rem stk Hg Hf HtV Hs Hv Hr Hcond; pose proof (tvol_pos t Hg); [lia|].
  cbn [hi_locate]. rewrite tri_length_spec by (auto; lia). cbn [obind]. replace (Z.of_nat (length (htravel t)) <=? rem) with false by lia.
  destruct (has_trivial (t_dim t) || hi_cached mx my (t_dim t)) eqn:Hc.
  - destruct (enter_spec origin t rem Hg Hc ltac:(lia)) as (c & l & E & Hl & Hrest).
    { intros Ht. destruct Hcond as [?|Ha]; auto. apply asp_nt in Ha. congruence. }
    rewrite E. exists c, l, stk. rewrite Hrest. repeat split; auto. pose proof (leaves_ge1 t Hg). lia.
  - apply orb_false_elim in Hc. destruct Hc as [Ht Hc]. rewrite (from_all t Hg Ht) in Hr |- *.
    destruct (skip_spec (S fuel) t Hg Ht Hf 4 0 rem eq_refl Hr) as (j & rem' & E & Hj & Hr' & H0 & Hk). cbn [seq] in E. rewrite E. cbn [obind app].
    destruct (sub_spec t j Hg Ht ltac:(lia)) as (G & Vl & C0).
    set (fr := mkTri (Z.of_nat j) (t_type t) (t_dim t) (t_org t)).
    destruct (IH (tri_sub t j) rem' (fr :: stk) G ltac:(lia) ltac:(lia)) as (c & l & stk' & El & Hl & Hs' & Hv' & Hrest & Hlv); auto.
    + constructor; auto. split; [|right; split; [cbn; lia|split; auto]].
      destruct Hg as (k & f & y & x & oy & ox & -> & Hrr); do 6 eexists; split; [reflexivity|exact Hrr].
    + destruct Hcond as [Hcond|Hcond]; [left; auto|right; apply asp_sub; auto; lia].
    + exists c, l, stk'. split; [exact El|]. split; [exact Hl|]. split; [exact Hs'|]. split; [exact Hv'|].
      unfold frames in Hrest at 2. unfold frames_lv in Hlv at 2. cbn [flat_map map list_sum fold_right] in Hrest, Hlv.
      fold (frames stk) in Hrest. fold (list_sum (map frame_lv stk)) in Hlv. fold (frames_lv stk) in Hlv.
      assert (Ef : frame_rest fr = from t (S j)).
      { unfold frame_rest, fr. cbn [t_cnt]. replace (Z.of_nat j =? -1) with false by lia. rewrite Nat2Z.id. reflexivity. }
      assert (Efl : frame_lv fr = from_lv t (S j)).
      { unfold frame_lv, fr. cbn [t_cnt]. replace (Z.of_nat j =? -1) with false by lia. rewrite Nat2Z.id. reflexivity. }
      rewrite Ef in Hrest. rewrite Efl in Hlv. split; [rewrite Hrest, Hk, app_assoc; reflexivity|].
      rewrite from_lv_all by auto. assert (Hm : (leaves (tri_sub t j) + from_lv t (S j) <= from_lv t 0)%nat).
      { rewrite <- from_lv_S by lia. clear E Hr Hr' Hk El. destruct j as [|[|[|[|j]]]]; try lia.
        - rewrite (from_lv_S t 0) by lia. lia.
        - rewrite (from_lv_S t 0), (from_lv_S t 1) by lia. lia.
        - rewrite (from_lv_S t 0), (from_lv_S t 1), (from_lv_S t 2) by lia. lia. }
      lia.
Qed.
End Iter.
