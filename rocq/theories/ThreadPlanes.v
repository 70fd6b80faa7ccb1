(** Planes: the iterators of [planeStreakIterator] cut the sequence of Streaks
    into consecutive parts. *)
From Verif Require Import Base ListFacts RegionSpec RegionModel RegionTree RegionFlat RegionEnc RegionRep RegionIterModel RegionIter RegionStreaks RegionOpsModel
  UpdateModel UpdateFacts ThreadModel.
From Coq Require Import Sorted.

(** The first Streak of plane [p]. *)
Fixpoint pstart (r : indices) (p : nat) : nat :=
  match r with
  | [] => p
  | [v] => p
  | v :: rest => match nth_error v p with Some e => pstart rest (Z.to_nat (snd e)) | None => p end
  end.

Lemma pstart_S v w rest p : pstart (v :: w :: rest) p = match nth_error v p with Some e => pstart (w :: rest) (Z.to_nat (snd e)) | None => p end.
Proof. reflexivity. Qed.

Lemma descend_S v w rest p : it_descend (v :: w :: rest) p =
  match nth_error v p with Some e => match it_descend (w :: rest) (Z.to_nat (snd e)) with Some ps => Some (p :: ps) | None => None end | None => None end.
Proof. reflexivity. Qed.

Lemma cnt_at v p e h : StronglySorted olt v -> nth_error v p = Some e -> (p < cnt v h)%nat <-> snd e <= Z.of_nat h.
Proof.
  intros Hs He. destruct (cnt_split v h Hs) as (v1 & v2 & -> & Hc & Ha & Hb). rewrite Hc. split.
  - intros Hp. rewrite nth_error_app1 in He by exact Hp. apply nth_error_In in He. now apply Ha.
  - intros Hle. destruct (Nat.lt_ge_cases p (length v1)) as [|Hp]; [assumption|]. rewrite nth_error_app2 in He by exact Hp. apply nth_error_In in He. apply Hb in He. lia.
Qed.

(** Positions and planes. *)
Lemma plane_le (r : indices) : widx r -> r <> [] -> forall p k, (p < length (hd [] r))%nat -> (k < length (last r []))%nat ->
  ((p <= hd O (it_locate r k))%nat <-> (pstart r p <= k)%nat).
Proof.
  induction r as [|v r IH]; intros Hw Hr p k Hp Hk; [congruence|]. destruct r as [|w r]; [reflexivity|].
  apply widx_S in Hw. destruct Hw as ((Hs & H0) & Hb & Hne & Hw). cbn [hd] in Hp. rewrite last_cons in Hk by congruence.
  destruct (nth_error v p) as [e|] eqn:E; [|apply nth_error_None in E; lia]. rewrite it_locate_S, pstart_S, E. cbn [hd].
  assert (Hin : In e v) by now apply nth_error_In in E. specialize (Hb e Hin).
  rewrite <- (IH Hw ltac:(congruence) (Z.to_nat (snd e)) k) by (cbn [hd]; lia || exact Hk).
  pose proof (cnt_at v p e (hd O (it_locate (w :: r) k)) Hs E) as Hc.
  assert (v <> []) by (intros ->; destruct p; discriminate E). pose proof (cnt_pos v (hd O (it_locate (w :: r) k)) Hs H H0). lia.
Qed.

Lemma pstart_bound (r : indices) : widx r -> r <> [] -> forall p, (p < length (hd [] r))%nat -> (pstart r p < length (last r []))%nat.
Proof.
  induction r as [|v r IH]; intros Hw Hr p Hp; [congruence|]. destruct r as [|w r]; [exact Hp|].
  apply widx_S in Hw. destruct Hw as (_ & Hb & _ & Hw). cbn [hd] in Hp. rewrite last_cons by congruence.
  destruct (nth_error v p) as [e|] eqn:E; [|apply nth_error_None in E; lia]. rewrite pstart_S, E. apply IH; [exact Hw|congruence|].
  assert (Hin : In e v) by now apply nth_error_In in E. specialize (Hb e Hin). cbn [hd]. lia.
Qed.

Lemma pstart_lt (r : indices) : widx r -> r <> [] -> forall p q, (p < q)%nat -> (q < length (hd [] r))%nat -> (pstart r p < pstart r q)%nat.
Proof.
  induction r as [|v r IH]; intros Hw Hr p q Hpq Hq; [congruence|]. destruct r as [|w r]; [exact Hpq|].
  apply widx_S in Hw. destruct Hw as ((Hs & _) & Hb & _ & Hw). cbn [hd] in Hq.
  destruct (nth_error v p) as [e|] eqn:Ep; [|apply nth_error_None in Ep; lia]. destruct (nth_error v q) as [e'|] eqn:Eq; [|apply nth_error_None in Eq; lia].
  rewrite !pstart_S, Ep, Eq. assert (Hin : In e' v) by now apply nth_error_In in Eq. pose proof (Hb e' Hin) as Hb'.
  assert (Hin0 : In e v) by now apply nth_error_In in Ep. pose proof (Hb e Hin0) as Hb0.
  apply IH; [exact Hw|congruence| |cbn [hd]; lia].
  assert (snd e < snd e'); [|lia]. destruct (nth_error_split v q Eq) as (l1 & l2 & -> & Hl). rewrite nth_error_app1 in Ep by lia. apply nth_error_In in Ep.
  apply ss_app in Hs. destruct Hs as (_ & _ & Hs). apply (Hs e e' Ep). now left.
Qed.

Lemma pstart_zero (r : indices) : widx r -> r <> [] -> (0 < length (hd [] r))%nat -> pstart r 0 = O.
Proof.
  induction r as [|v r IH]; intros Hw Hr Hp; [congruence|]. destruct r as [|w r]; [reflexivity|].
  apply widx_S in Hw. destruct Hw as ((_ & H0) & Hb & _ & Hw). destruct v as [|e v]; [cbn in Hp; lia|].
  rewrite pstart_S. cbn [nth_error]. rewrite (H0 e eq_refl). apply IH; [exact Hw|congruence|]. specialize (Hb e (or_introl eq_refl)). cbn [hd]. lia.
Qed.

Lemma descend_locate (r : indices) : widx r -> r <> [] -> forall p, (p < length (hd [] r))%nat ->
  it_descend r p = Some (it_locate r (pstart r p)) /\ hd O (it_locate r (pstart r p)) = p.
Proof.
  induction r as [|v r IH]; intros Hw Hr p Hp; [congruence|]. destruct r as [|w r]; [split; reflexivity|].
  apply widx_S in Hw. destruct Hw as ((Hs & H0) & Hb & _ & Hw). cbn [hd] in Hp.
  destruct (nth_error v p) as [e|] eqn:E; [|apply nth_error_None in E; lia]. assert (Hin : In e v) by now apply nth_error_In in E. specialize (Hb e Hin).
  destruct (IH Hw ltac:(congruence) (Z.to_nat (snd e))) as [E1 E2]; [cbn [hd]; lia|].
  rewrite descend_S, pstart_S, E, E1, it_locate_S, E2. cbn [hd].
  assert (Hc : cnt v (Z.to_nat (snd e)) = S p).
  { pose proof (cnt_at v p e (Z.to_nat (snd e)) Hs E) as Hc. assert (H1 : (p < cnt v (Z.to_nat (snd e)))%nat) by (apply Hc; lia).
    assert (v <> []) by (intros ->; destruct p; discriminate E). pose proof (cnt_pos v (Z.to_nat (snd e)) Hs H H0) as H2.
    destruct (Nat.eq_dec (cnt v (Z.to_nat (snd e))) (S p)) as [|Hn]; [assumption|]. exfalso.
    destruct (nth_error v (S p)) as [e'|] eqn:E'; [|apply nth_error_None in E'; lia].
    pose proof (cnt_at v (S p) e' (Z.to_nat (snd e)) Hs E') as Hc'. assert (H3 : (S p < cnt v (Z.to_nat (snd e)))%nat) by lia. apply Hc' in H3.
    destruct (nth_error_split v (S p) E') as (l1 & l2 & Ev & Hl). rewrite Ev in E, Hs. rewrite nth_error_app1 in E by lia. apply nth_error_In in E.
    apply ss_app in Hs. destruct Hs as (_ & _ & Hs). specialize (Hs e e' E (or_introl eq_refl)). unfold olt in Hs. lia. }
  rewrite Hc. replace (S p - 1)%nat with p by lia. split; reflexivity.
Qed.

Ltac dltb H := match goal with |- context [Nat.ltb ?a ?b] => destruct (Nat.ltb_spec a b) as [H|H] end.

(** ** Running from one position to another *)

Definition at_pos (r : indices) (k : nat) : list nat := if (k <? length (last r []))%nat then it_locate r k else map (@length _) r.

Lemma at_pos_last (r : indices) k : r <> [] -> (k <= length (last r []))%nat -> last (at_pos r k) O = k.
Proof.
  intros Hr Hk. unfold at_pos. dltb H; [now apply locate_last|]. rewrite last_map_length by exact Hr. lia.
Qed.

Lemma it_run_to (r : indices) off al : widx r -> r <> [] -> length off = length r ->
  forall m fuel k s fin, (k + m <= length (last r []))%nat -> (m <= fuel)%nat -> it_pos fin = at_pos r (k + m) ->
  (m <> O -> strk r off al k = Some s) ->
  exists l, it_run fuel r off al (mkIter (at_pos r k) s) fin = Some l /\
    length l = m /\ (forall i, (i < m)%nat -> strk r off al (k + i) = nth_error l i).
Proof.
  intros Hw Hr Hoff. induction m as [|m IH]; intros fuel k s fin Hkm Hf Hfin Hs.
  - exists []. split; [|split; [reflexivity|intros i Hi; lia]]. rewrite Nat.add_0_r in Hfin.
    assert (E : it_eqb (mkIter (at_pos r k) s) fin = true) by (apply it_eqb_spec; cbn [it_pos]; congruence). destruct fuel; cbn [it_run]; rewrite E; reflexivity.
  - destruct fuel as [|fuel]; [lia|]. cbn [it_run].
    destruct (it_eqb (mkIter (at_pos r k) s) fin) eqn:E.
    { exfalso. apply it_eqb_spec in E. cbn [it_pos] in E. rewrite Hfin in E. apply (f_equal (fun l => last l O)) in E. rewrite !at_pos_last in E by (auto; lia). lia. }
    assert (Hk : (k < length (last r []))%nat) by lia. specialize (Hs ltac:(lia)).
    assert (Ek : at_pos r k = it_locate r k) by (unfold at_pos; now replace (k <? length (last r []))%nat with true by lia). rewrite Ek.
    assert (exists s', it_next r off al (mkIter (it_locate r k) s) = Some (mkIter (at_pos r (S k)) s') /\ (m <> O -> strk r off al (S k) = Some s')) as (s' & En & Hs').
    { destruct (Nat.eq_dec (S k) (length (last r []))) as [El|El].
      - exists s. unfold it_next. cbn [it_pos it_streak]. rewrite locate_last by auto. replace (S k =? length (last r []))%nat with true by lia.
        unfold at_pos. replace (S k <? length (last r []))%nat with false by lia. split; [reflexivity|lia].
      - destruct (it_next_locate r k off al s Hw Hr ltac:(lia) Hoff Hs) as (s' & H1 & H2). exists s'. unfold at_pos. replace (S k <? length (last r []))%nat with true by lia.
        split; [exact H2|]. intros _. exact H1. }
    rewrite En. destruct (IH fuel (S k) s' fin) as (l & E1 & E2 & E3); [lia|lia|rewrite Hfin; f_equal; lia|exact Hs'|].
    rewrite E1. exists (s :: l). split; [reflexivity|]. split; [cbn; lia|]. intros [|i] Hi; [rewrite Nat.add_0_r; exact Hs|].
    replace (k + S i)%nat with (S k + i)%nat by lia. cbn. apply E3. lia.
Qed.

(** ** Planes of valid regions *)

Definition pbegin (r : indices) (c : nat) : nat := if (c <? length (hd [] r))%nat then pstart r c else length (last r []).

Section Planes.
Context (n : nat) (r : indices) (ss : list streak) (Hr : rvalid n r) (Hss : reg_streaks r = Some ss).

Lemma planes_facts : widx r /\ r <> [] /\ length (zero_off r) = length r /\ length ss = length (last r []) /\
  (forall i, (i < length ss)%nat -> strk r (zero_off r) 0 i = nth_error ss i) /\ (hd [] r = [] -> last r [] = []).
Proof using Hr Hss.
  assert (Hne : r <> []) by (apply length_nonnil with n; now apply valid_length).
  assert (Hrun := fun t Hw E => run_all r (zero_off r) 0 (eq_rect _ widx (widx_tree n t Hw) _ (eq_sym E)) Hne).
  destruct Hr as (t & Hw & E). specialize (Hrun t Hw E).
  assert (Hwi : widx r) by (rewrite E; now apply widx_tree).
  assert (Hzl : length (zero_off r) = length r) by (rewrite zero_off_repeat, repeat_length; auto).
  assert (Hlr : length r = S n) by (rewrite E, enc_length, lvl_length; auto).
  destruct Hrun as (l' & Hl' & Hlen & Hnth); auto.
  { intros k Hk. rewrite E in Hk |- *. rewrite enc_last, (last_lvl n t []), map_length in Hk.
    destruct (nth_error (tstr n t []) k) as [s0|] eqn:E0; [|apply nth_error_None in E0; lia].
    rewrite (strk_tree n t _ 0 k s0); auto; [congruence|]. rewrite <- E, Hzl; auto. }
  unfold reg_streaks in Hss. rewrite Hss in Hl'. assert (l' = ss) as -> by congruence.
  split; [exact Hwi|]. split; [exact Hne|]. split; [exact Hzl|]. split; [exact Hlen|]. split; [intros i Hi; apply Hnth; lia|].
  intros Hh. destruct (last r []) eqn:El; [reflexivity|]. destruct (locate_zero r Hwi) as [_ H]; [rewrite El; discriminate|]. contradiction.
Qed.

Lemma pbegin_le c : (pbegin r c <= pbegin r (S c) <= length ss)%nat /\ ((c < length (hd [] r))%nat -> (pbegin r c < pbegin r (S c))%nat).
Proof using Hr Hss.
  destruct planes_facts as (Hw & Hne & _ & Hl & _). unfold pbegin. rewrite Hl.
  destruct (Nat.ltb_spec c (length (hd [] r))) as [H1|H1]; destruct (Nat.ltb_spec (S c) (length (hd [] r))) as [H2|H2]; try lia.
  - pose proof (pstart_lt r Hw Hne c (S c) ltac:(lia) H2). pose proof (pstart_bound r Hw Hne (S c) H2). lia.
  - pose proof (pstart_bound r Hw Hne c H1). lia.
Qed.

Lemma pbegin_zero : pbegin r 0 = O.
Proof using Hr Hss.
  destruct planes_facts as (Hw & Hne & _ & Hl & _ & He). unfold pbegin. destruct (Nat.ltb_spec 0 (length (hd [] r))) as [H|H]; [now apply pstart_zero|].
  rewrite He; [reflexivity|]. destruct (hd [] r); [reflexivity|cbn in H; lia].
Qed.

Lemma plane_iter c : exists s, reg_plane r c = Some (mkIter (at_pos r (pbegin r c)) s) /\ ((pbegin r c < length ss)%nat -> strk r (zero_off r) 0 (pbegin r c) = Some s).
Proof using Hr Hss.
  destruct planes_facts as (Hw & Hne & Hz & Hl & Hn & He).
  assert (Hst : forall k, (k < length ss)%nat -> exists s, strk r (zero_off r) 0 k = Some s).
  { intros k Hk. rewrite Hn by exact Hk. destruct (nth_error ss k) eqn:E; [eexists; reflexivity|]. apply nth_error_None in E. lia. }
  unfold reg_plane. destruct (Nat.eqb_spec c 0) as [->|Hc].
  - rewrite pbegin_zero. unfold it_begin, reg_is_empty, at_pos. destruct (last r []) as [|e l] eqn:El.
    + exists (streak_default r). split; [|intros H; cbn [length] in Hl; lia]. cbn [length]. replace (0 <? 0)%nat with false by lia. do 2 f_equal.
      clear - Hw El. revert Hw El. induction r as [|v r' IH]; intros Hw Hl; [reflexivity|]. destruct r' as [|w r']; [cbn in *; subst; reflexivity|].
      apply widx_S in Hw. destruct Hw as (_ & Hb & _ & Hw). rewrite last_cons in Hl by congruence. specialize (IH Hw Hl). cbn [map] in *. injection IH as E1 E2. rewrite <- E1, <- E2. f_equal.
      destruct v as [|x v]; [reflexivity|]. exfalso. specialize (Hb x (or_introl eq_refl)). lia.
    + destruct (locate_zero r Hw) as [Ez _]; [rewrite El; discriminate|]. destruct (Hst 0%nat) as (s & Es); [rewrite Hl; cbn; lia|].
      exists s. cbn [length]. replace (0 <? S (length l))%nat with true by lia. unfold strk in Es. rewrite <- Ez, Es. split; [reflexivity|]. intros _. exact Es.
  - unfold reg_num_planes. destruct (Nat.leb_spec (length (hd [] r)) c) as [H|H].
    + unfold pbegin. replace (c <? length (hd [] r))%nat with false by lia. exists (streak_default r). unfold at_pos. replace (length (last r []) <? length (last r []))%nat with false by lia.
      split; [reflexivity|]. lia.
    + destruct (descend_locate r Hw Hne c H) as [E _]. rewrite E. pose proof (pstart_bound r Hw Hne c H) as Hb. unfold pbegin. replace (c <? length (hd [] r))%nat with true by lia.
      destruct (Hst (pstart r c)) as (s & Es); [lia|]. exists s. unfold at_pos. replace (pstart r c <? length (last r []))%nat with true by lia. unfold strk in Es. rewrite Es. split; [reflexivity|]. intros _. exact Es.
Qed.

(** Plane [c]. *)
Definition part (c : nat) : list streak := firstn (pbegin r (S c) - pbegin r c) (skipn (pbegin r c) ss).

Lemma range_part c b e : reg_plane r c = Some b -> reg_plane r (S c) = Some e -> range r b e = Some (part c).
Proof using Hr Hss.
  intros Eb Ee. destruct planes_facts as (Hw & Hne & Hz & Hl & Hn & _). destruct (pbegin_le c) as [Hle _].
  destruct (plane_iter c) as (s & Es & Hs). destruct (plane_iter (S c)) as (s' & Es' & _). rewrite Es in Eb. rewrite Es' in Ee.
  assert (b = mkIter (at_pos r (pbegin r c)) s) as -> by congruence. assert (e = mkIter (at_pos r (pbegin r (S c))) s') as -> by congruence.
  unfold range, reg_num_streaks. set (m := (pbegin r (S c) - pbegin r c)%nat).
  destruct (it_run_to r (zero_off r) 0 Hw Hne Hz m (length (last r [])) (pbegin r c) s (mkIter (at_pos r (pbegin r (S c))) s')) as (l & E1 & E2 & E3); [lia|lia|cbn [it_pos]; f_equal; lia|intros Hm; apply Hs; lia|].
  rewrite E1. f_equal. apply nth_error_ext; [unfold part; rewrite firstn_length, skipn_length; lia|]. intros i Hi. rewrite <- E3 by lia. rewrite Hn by lia. unfold part. fold m.
  rewrite E2 in Hi. clear - Hi Hle.
  assert (H : forall (l : list streak) m i, (i < m)%nat -> nth_error (firstn m l) i = nth_error l i).
  { induction l as [|a l IH]; intros [|k] [|j] H; cbn; try lia; try reflexivity. apply IH. lia. }
  rewrite H by exact Hi. assert (H' : forall (l : list streak) m i, nth_error (skipn m l) i = nth_error l (m + i)).
  { induction l as [|a l IH]; intros [|k] j; cbn; try reflexivity; [now destruct j|]. apply IH. }
  now rewrite H'.
Qed.

Lemma parts_concat : forall k, concat (map part (seq 0 k)) = firstn (pbegin r k) ss.
Proof using Hr Hss.
  induction k as [|k IH]; [now rewrite pbegin_zero|]. rewrite seq_S, map_app, concat_app, IH. cbn [map concat Nat.add]. rewrite app_nil_r. unfold part.
  destruct (pbegin_le k) as [Hle _]. replace (pbegin r (S k)) with (pbegin r k + (pbegin r (S k) - pbegin r k))%nat at 2 by lia.
  clear. generalize (pbegin r (S k) - pbegin r k)%nat as m. generalize (pbegin r k) as j. generalize ss as l.
  induction l as [|a l IH]; intros j m; [now rewrite skipn_nil, !firstn_nil|]. destruct j as [|j]; [reflexivity|]. cbn [firstn skipn app Nat.add]. f_equal. apply IH.
Qed.

Lemma planes_eq : planes r = Some (map part (seq 0 (reg_num_planes r))) /\ concat (map part (seq 0 (reg_num_planes r))) = ss.
Proof using Hr Hss.
  destruct planes_facts as (Hw & Hne & Hz & Hl & Hn & _). split.
  - unfold planes. apply omap_spec. generalize (seq 0 (reg_num_planes r)) as l. induction l as [|c l IH]; constructor; [|exact IH].
    destruct (plane_iter c) as (s & Es & _). destruct (plane_iter (S c)) as (s' & Es' & _). rewrite Es. cbn [obind]. rewrite Es'. cbn [obind]. eapply range_part; [exact Es|exact Es'].
  - rewrite parts_concat. unfold pbegin, reg_num_planes. replace (length (hd [] r) <? length (hd [] r))%nat with false by lia. rewrite <- Hl. apply firstn_all.
Qed.

Lemma chain_eq : forall m c b, reg_plane r c = Some b -> chain r b c m = Some (map part (seq c m)).
Proof using Hr Hss.
  induction m as [|m IH]; intros c b Eb; [reflexivity|]. cbn [chain seq map]. destruct (plane_iter (S c)) as (s' & Es' & _). rewrite Es'. cbn [obind].
  rewrite (range_part c b _ Eb Es'). cbn [obind]. now rewrite (IH (S c) _ Es').
Qed.

Lemma hd_of_strk k s : (1 <= n)%nat -> strk r (zero_off r) 0 k = Some s -> exists e, nth_error (hd [] r) (hd O (it_locate r k)) = Some e /\ hd 0 (s_pre s) = fst e.
Proof using Hr.
  clear Hss ss. intros Hn Hs. pose proof (valid_length n r Hr) as Hlen. unfold strk, it_construct in Hs. destruct r as [|v [|w rest]]; cbn [length] in Hlen; [lia|lia|].
  rewrite it_locate_S in Hs |- *. cbn [hd]. unfold zero_off in Hs. cbn [map] in Hs. rewrite it_keys_S in Hs.
  destruct (nth_error v _) as [e|] eqn:Ee in Hs; [|discriminate]. destruct (it_keys (w :: rest) _ _ 0) as [[pre [x y]]|]; [|discriminate].
  exists e. rewrite Ee. split; [reflexivity|]. assert (s = mkStreak (fst e + 0 :: pre) x y) as -> by congruence. cbn [s_pre hd]. lia.
Qed.

Lemma part_plane c : (c < length (hd [] r))%nat -> part c <> [] /\ ((1 <= n)%nat -> exists e, nth_error (hd [] r) c = Some e /\ forall s, In s (part c) -> hd 0 (s_pre s) = fst e).
Proof using Hr Hss.
  intros Hc. destruct planes_facts as (Hw & Hne & Hz & Hl & Hn & _). destruct (pbegin_le c) as [Hle Hlt]. specialize (Hlt Hc).
  assert (Hlp : length (part c) = (pbegin r (S c) - pbegin r c)%nat) by (unfold part; rewrite firstn_length, skipn_length; lia).
  split; [intros E; rewrite E in Hlp; cbn in Hlp; lia|]. intros H1. destruct (nth_error (hd [] r) c) as [e|] eqn:Ee; [|apply nth_error_None in Ee; lia].
  exists e. split; [reflexivity|]. intros s Hs. apply In_nth_error in Hs. destruct Hs as (i & Ei). assert (Hi : (i < length (part c))%nat) by (apply nth_error_Some; congruence).
  assert (Es : nth_error ss (pbegin r c + i) = Some s).
  { rewrite <- Ei. unfold part. rewrite Hlp in Hi. clear - Hi.
    assert (H : forall (l : list streak) m i, (i < m)%nat -> nth_error (firstn m l) i = nth_error l i).
    { induction l as [|a l IH]; intros [|k] [|j] H; cbn; try lia; try reflexivity. apply IH. lia. }
    rewrite H by exact Hi. assert (H' : forall (l : list streak) m i, nth_error (skipn m l) i = nth_error l (m + i)).
    { induction l as [|a l IH]; intros [|k] j; cbn; try reflexivity; [now destruct j|]. apply IH. }
    now rewrite H'. }
  rewrite <- Hn in Es by lia. destruct (hd_of_strk _ s H1 Es) as (e' & Ee' & ->). f_equal.
  assert (hd O (it_locate r (pbegin r c + i)) = c); [|congruence].
  assert (Hk : (pbegin r c + i < length (last r []))%nat) by lia. unfold pbegin in Hle, Hlp, Hk |- *. replace (c <? length (hd [] r))%nat with true in * by lia.
  pose proof (plane_le r Hw Hne c (pstart r c + i) Hc Hk) as L1. pose proof (locate_hd r (pstart r c + i) Hw Hk) as L0.
  destruct (Nat.ltb_spec (S c) (length (hd [] r))) as [H2|H2]; [|lia]. pose proof (plane_le r Hw Hne (S c) (pstart r c + i) H2 Hk) as L2. lia.
Qed.
End Planes.
