(** Set operations of valid Regions. *)
From Verif Require Import Base ListFacts RegionSpec RegionModel RegionTree RegionFlat RegionEnc RegionRep
  RegionIterModel RegionIter RegionStreaks CoordModel RegionOpsModel.
From Coq Require Import Sorted.

Lemma coord_eqb_spec a : forall b, coord_eqb a b = true <-> a = b.
Proof.
  induction a as [|x a IH]; intros [|y b]; cbn; split; try discriminate; auto.
  - rewrite andb_true_iff, IH. intros [H ->]. f_equal. lia.
  - intros [= -> ->]. rewrite andb_true_iff, IH. split; auto. lia.
Qed.

Lemma coord_eqb_refl a : coord_eqb a a = true.
Proof. now apply coord_eqb_spec. Qed.

Lemma in_streaks_nil c : in_streaks [] c <-> False.
Proof. unfold in_streaks. split; [intros (s & [] & _)|tauto]. Qed.

Lemma in_streaks_cons s l c : in_streaks (s :: l) c <-> in_streak s c \/ in_streaks l c.
Proof.
  unfold in_streaks. split.
  - intros (s' & [->|H] & Hc); eauto.
  - intros [H|(s' & H & Hc)]; [exists s|exists s']; cbn; auto.
Qed.

Lemma in_streaks_app a b c : in_streaks (a ++ b) c <-> in_streaks a c \/ in_streaks b c.
Proof.
  unfold in_streaks. split.
  - intros (s & H & Hc). apply in_app_iff in H. destruct H; eauto.
  - intros [(s & H & Hc)|(s & H & Hc)]; exists s; rewrite in_app_iff; auto.
Qed.

Definition dims_ok (d : nat) (l : list streak) : Prop := Forall (fun s => length (s_pre s) = d) l.

Lemma ok_dims d l : streaks_ok d l -> dims_ok d l.
Proof. intros [_ H]. eapply Forall_impl; [|exact H]. cbn; tauto. Qed.

Lemma insert_all_valid d l : forall r, rvalid d r -> dims_ok d l ->
  rvalid d (insert_all r l) /\
  forall c, length c = S d -> (rin (insert_all r l) c <-> rin r c \/ in_streaks l c).
Proof.
  induction l as [|s l IH]; intros r Hr Hl.
  - cbn. split; auto. intros. rewrite in_streaks_nil. tauto.
  - apply Forall_cons_iff' in Hl. destruct Hl as [Hs Hl].
    destruct (insert_valid d r s Hr Hs) as [Hv Hm].
    destruct (IH (reg_insert r s) Hv Hl) as [Hv' Hm']. cbn [insert_all fold_left]. split; auto.
    intros c Hc. unfold insert_all in Hm'. rewrite Hm', Hm, in_streaks_cons by auto. tauto.
Qed.

(** ** Comparison helpers *)

Lemma pre_less_spec p1 : forall p2 e1 e2, length p1 = length p2 ->
  (pre_less p1 p2 e1 e2 = true <-> coord_lt p1 p2 \/ (p1 = p2 /\ e1 < e2)).
Proof.
  induction p1 as [|a p1 IH]; intros [|b p2] e1 e2 Hl; try discriminate; cbn.
  - rewrite Z.ltb_lt. tauto.
  - injection Hl as Hl. destruct (Z.ltb_spec a b); [split; auto|].
    destruct (Z.ltb_spec b a).
    + split; [discriminate|]. intros [[H1|[H1 _]]|[H1 _]]; try lia. injection H1; lia.
    + assert (a = b) by lia. subst b. rewrite IH by auto. split.
      * intros [H1|[-> H1]]; auto.
      * intros [[H1|[_ H1]]|[H1 H2]]; auto; [lia|]. injection H1 as ->. auto.
Qed.

Lemma s_less_spec d s1 s2 : length (s_pre s1) = d -> length (s_pre s2) = d ->
  (s_less s1 s2 = true <-> coord_lt (s_pre s1) (s_pre s2) \/ (s_pre s1 = s_pre s2 /\ s_e s1 < s_e s2)).
Proof. intros. apply pre_less_spec. congruence. Qed.

Lemma s_less_false d s1 s2 : length (s_pre s1) = d -> length (s_pre s2) = d ->
  (s_less s1 s2 = false <-> coord_lt (s_pre s2) (s_pre s1) \/ (s_pre s1 = s_pre s2 /\ s_e s2 <= s_e s1)).
Proof.
  intros H1 H2. rewrite <- not_true_iff_false, (s_less_spec d) by auto.
  destruct (coord_lt_total (s_pre s1) (s_pre s2)) as [H|[H|H]]; [congruence| | |].
  - split; [tauto|]. intros [H3|[H3 _]]; exfalso.
    + eapply coord_lt_irrefl, coord_lt_trans; eauto.
    + rewrite H3 in H. eapply coord_lt_irrefl; eauto.
  - rewrite H. split.
    + intros H3. right. split; auto. destruct (Z.lt_ge_cases (s_e s1) (s_e s2)); tauto.
    + intros [H3|[_ H3]] [H4|[_ H4]]; try (eapply coord_lt_irrefl; eassumption). lia.
  - split; [auto|]. intros _ [H3|[H3 _]].
    + eapply coord_lt_irrefl, coord_lt_trans; eauto.
    + rewrite H3 in H. eapply coord_lt_irrefl; eauto.
Qed.

Lemma s_intersects_spec s1 s2 :
  s_intersects s1 s2 = true <->
  s_pre s1 = s_pre s2 /\ ((s_x s1 <= s_x s2 < s_e s1) \/ (s_x s2 <= s_x s1 < s_e s2)).
Proof. unfold s_intersects. rewrite andb_true_iff, coord_eqb_spec. split; intros [H1 H2]; split; auto; lia. Qed.

(** ** Merging *)

Lemma adv_valid d ret last s :
  rvalid d ret -> length (s_pre s) = d -> (forall c, in_streak last c -> length c = S d -> rin ret c) ->
  rvalid d (fst (adv (ret, last) s)) /\
  (forall c, length c = S d -> (rin (fst (adv (ret, last) s)) c <-> rin ret c \/ in_streak s c)) /\
  (forall c, in_streak (snd (adv (ret, last) s)) c -> length c = S d -> rin (fst (adv (ret, last) s)) c).
Proof.
  intros Hr Hs Hlast. unfold adv. cbn [fst snd]. destruct (streak_eqb s last) eqn:E; cbn [fst snd].
  - unfold streak_eqb in E. rewrite !andb_true_iff, coord_eqb_spec in E. destruct E as [[E1 E2] E3].
    assert (s = last) by (destruct s, last; cbn in *; f_equal; auto; lia). subst last.
    split; auto. split; auto. intros c Hc. split; auto. intros [H|H]; auto.
  - destruct (insert_valid d ret s Hr Hs) as [Hv Hm]. split; auto. split; auto.
    intros c Hc Hl. apply Hm; auto.
Qed.

Lemma merge2_loop_valid d : forall fuel ret last a b,
  (length a + length b <= fuel)%nat -> rvalid d ret -> dims_ok d a -> dims_ok d b ->
  (forall c, in_streak last c -> length c = S d -> rin ret c) ->
  exists ret' a' b', merge2_loop fuel (ret, last) a b = Some (ret', a', b') /\
    rvalid d ret' /\ dims_ok d a' /\ dims_ok d b' /\
    forall c, length c = S d ->
      (rin ret' c \/ in_streaks a' c \/ in_streaks b' c <-> rin ret c \/ in_streaks a c \/ in_streaks b c).
Proof.
  induction fuel as [|f IH]; intros ret last a b Hf Hr Ha Hb Hlast.
  - destruct a; [|cbn in Hf; lia]. exists ret, [], b. cbn. repeat (split; auto). all: tauto.
  - destruct a as [|sa a]; [exists ret, [], b; cbn; repeat (split; auto); tauto|].
    destruct b as [|sb b]; [exists ret, (sa :: a), []; cbn; repeat (split; auto); tauto|].
    cbn [merge2_loop]. pose proof Ha as Ha'. pose proof Hb as Hb'.
    apply Forall_cons_iff' in Ha'. apply Forall_cons_iff' in Hb'.
    destruct Ha' as [Hsa Ha'], Hb' as [Hsb Hb'].
    destruct (s_less sa sb).
    + destruct (adv_valid d ret last sa Hr Hsa Hlast) as (H1 & H2 & H3).
      destruct (adv (ret, last) sa) as [ret1 last1] eqn:E. cbn [fst snd] in *.
      destruct (IH ret1 last1 a (sb :: b)) as (ret' & a' & b' & H4 & H5 & H6 & H7 & H8); auto;
        [cbn in *; lia|].
      exists ret', a', b'. repeat (split; auto); intros Hx.
      * apply H8 in Hx; auto. rewrite H2 in Hx by auto. rewrite (in_streaks_cons sa). tauto.
      * apply H8; auto. rewrite H2 by auto. rewrite (in_streaks_cons sa) in Hx. tauto.
    + destruct (adv_valid d ret last sb Hr Hsb Hlast) as (H1 & H2 & H3).
      destruct (adv (ret, last) sb) as [ret1 last1] eqn:E. cbn [fst snd] in *.
      destruct (IH ret1 last1 (sa :: a) b) as (ret' & a' & b' & H4 & H5 & H6 & H7 & H8); auto;
        [cbn in *; lia|].
      exists ret', a', b'. repeat (split; auto); intros Hx.
      * apply H8 in Hx; auto. rewrite H2 in Hx by auto. rewrite (in_streaks_cons sb). tauto.
      * apply H8; auto. rewrite H2 by auto. rewrite (in_streaks_cons sb) in Hx. tauto.
Qed.

Lemma default_empty r c : ~ in_streak (streak_default r) c.
Proof. unfold in_streak, streak_default; cbn. intros (x & _ & H). lia. Qed.

Lemma merge2way_valid d ret a b : rvalid d ret -> dims_ok d a -> dims_ok d b ->
  exists ret', merge2way ret a b = Some ret' /\ rvalid d ret' /\
    forall c, length c = S d -> (rin ret' c <-> rin ret c \/ in_streaks a c \/ in_streaks b c).
Proof.
  intros Hr Ha Hb. unfold merge2way. destruct a as [|sa a].
  - destruct (insert_all_valid d b ret Hr Hb) as [H1 H2]. eexists. split; [reflexivity|]. split; auto.
    intros c Hc. rewrite H2, in_streaks_nil by auto. tauto.
  - destruct b as [|sb b].
    + destruct (insert_all_valid d (sa :: a) ret Hr Ha) as [H1 H2]. eexists. split; [reflexivity|]. split; auto.
      intros c Hc. rewrite H2, in_streaks_nil by auto. tauto.
    + destruct (merge2_loop_valid d (length (sa :: a) + length (sb :: b)) ret (streak_default ret) (sa :: a) (sb :: b))
        as (ret' & a' & b' & H4 & H5 & H6 & H7 & H8); auto.
      { intros c H. now apply default_empty in H. }
      rewrite H4. destruct (insert_all_valid d a' ret' H5 H6) as [H9 H10].
      destruct (insert_all_valid d b' _ H9 H7) as [H11 H12].
      eexists. split; [reflexivity|]. split; auto.
      intros c Hc. rewrite H12, H10 by auto. rewrite <- H8 by auto. tauto.
Qed.

Lemma merge3_loop_valid d : forall fuel ret last a b e,
  (length a + length b + length e <= fuel)%nat -> rvalid d ret -> dims_ok d a -> dims_ok d b -> dims_ok d e ->
  (forall c, in_streak last c -> length c = S d -> rin ret c) ->
  exists ret' a' b' e', merge3_loop fuel (ret, last) a b e = Some (ret', a', b', e') /\
    rvalid d ret' /\ dims_ok d a' /\ dims_ok d b' /\ dims_ok d e' /\
    (a' = [] \/ b' = [] \/ e' = []) /\
    forall c, length c = S d ->
      (rin ret' c \/ in_streaks a' c \/ in_streaks b' c \/ in_streaks e' c <->
       rin ret c \/ in_streaks a c \/ in_streaks b c \/ in_streaks e c).
Proof.
  induction fuel as [|f IH]; intros ret last a b e Hf Hr Ha Hb He Hlast.
  - destruct a; [|cbn in Hf; lia]. exists ret, [], b, e. cbn. repeat (split; auto). all: tauto.
  - destruct a as [|sa a]; [exists ret, [], b, e; cbn; repeat (split; auto); tauto|].
    destruct b as [|sb b]; [exists ret, (sa :: a), [], e; cbn; repeat (split; auto); tauto|].
    destruct e as [|se e]; [exists ret, (sa :: a), (sb :: b), []; cbn; repeat (split; auto); tauto|].
    cbn [merge3_loop]. pose proof Ha as Ha'. pose proof Hb as Hb'. pose proof He as He'.
    apply Forall_cons_iff' in Ha'. apply Forall_cons_iff' in Hb'. apply Forall_cons_iff' in He'.
    destruct Ha' as [Hsa Ha'], Hb' as [Hsb Hb'], He' as [Hse He'].
    assert (Ga : exists ret' a' b' e', merge3_loop f (adv (ret, last) sa) a (sb :: b) (se :: e) = Some (ret', a', b', e') /\
      rvalid d ret' /\ dims_ok d a' /\ dims_ok d b' /\ dims_ok d e' /\ (a' = [] \/ b' = [] \/ e' = []) /\
      forall c, length c = S d -> (rin ret' c \/ in_streaks a' c \/ in_streaks b' c \/ in_streaks e' c <->
       rin ret c \/ in_streaks (sa :: a) c \/ in_streaks (sb :: b) c \/ in_streaks (se :: e) c)).
    { destruct (adv_valid d ret last sa Hr Hsa Hlast) as (H1 & H2 & H3).
      destruct (adv (ret, last) sa) as [ret1 last1] eqn:E. cbn [fst snd] in *.
      destruct (IH ret1 last1 a (sb :: b) (se :: e)) as (ret' & a' & b' & e' & H4 & H5 & H6 & H7 & H8 & H9 & H10); auto;
        [cbn in *; lia|].
      exists ret', a', b', e'. repeat (split; auto); intros Hx.
      * apply H10 in Hx; auto. rewrite H2 in Hx by auto. rewrite (in_streaks_cons sa). tauto.
      * apply H10; auto. rewrite H2 by auto. rewrite (in_streaks_cons sa) in Hx. tauto. }
    assert (Gb : exists ret' a' b' e', merge3_loop f (adv (ret, last) sb) (sa :: a) b (se :: e) = Some (ret', a', b', e') /\
      rvalid d ret' /\ dims_ok d a' /\ dims_ok d b' /\ dims_ok d e' /\ (a' = [] \/ b' = [] \/ e' = []) /\
      forall c, length c = S d -> (rin ret' c \/ in_streaks a' c \/ in_streaks b' c \/ in_streaks e' c <->
       rin ret c \/ in_streaks (sa :: a) c \/ in_streaks (sb :: b) c \/ in_streaks (se :: e) c)).
    { destruct (adv_valid d ret last sb Hr Hsb Hlast) as (H1 & H2 & H3).
      destruct (adv (ret, last) sb) as [ret1 last1] eqn:E. cbn [fst snd] in *.
      destruct (IH ret1 last1 (sa :: a) b (se :: e)) as (ret' & a' & b' & e' & H4 & H5 & H6 & H7 & H8 & H9 & H10); auto;
        [cbn in *; lia|].
      exists ret', a', b', e'. repeat (split; auto); intros Hx.
      * apply H10 in Hx; auto. rewrite H2 in Hx by auto. rewrite (in_streaks_cons sb). tauto.
      * apply H10; auto. rewrite H2 by auto. rewrite (in_streaks_cons sb) in Hx. tauto. }
    assert (Gc : exists ret' a' b' e', merge3_loop f (adv (ret, last) se) (sa :: a) (sb :: b) e = Some (ret', a', b', e') /\
      rvalid d ret' /\ dims_ok d a' /\ dims_ok d b' /\ dims_ok d e' /\ (a' = [] \/ b' = [] \/ e' = []) /\
      forall c, length c = S d -> (rin ret' c \/ in_streaks a' c \/ in_streaks b' c \/ in_streaks e' c <->
       rin ret c \/ in_streaks (sa :: a) c \/ in_streaks (sb :: b) c \/ in_streaks (se :: e) c)).
    { destruct (adv_valid d ret last se Hr Hse Hlast) as (H1 & H2 & H3).
      destruct (adv (ret, last) se) as [ret1 last1] eqn:E. cbn [fst snd] in *.
      destruct (IH ret1 last1 (sa :: a) (sb :: b) e) as (ret' & a' & b' & e' & H4 & H5 & H6 & H7 & H8 & H9 & H10); auto;
        [cbn in *; lia|].
      exists ret', a', b', e'. repeat (split; auto); intros Hx.
      * apply H10 in Hx; auto. rewrite H2 in Hx by auto. rewrite (in_streaks_cons se). tauto.
      * apply H10; auto. rewrite H2 by auto. rewrite (in_streaks_cons se) in Hx. tauto. }
    destruct (s_less sa sb); [destruct (s_less sa se)|destruct (s_less sb se)]; auto.
Qed.

Lemma merge3_rest_valid d ret a b e : rvalid d ret -> dims_ok d a -> dims_ok d b -> dims_ok d e ->
  (a = [] \/ b = [] \/ e = []) ->
  exists ret', merge3_rest ret a b e = Some ret' /\ rvalid d ret' /\
    forall c, length c = S d -> (rin ret' c <-> rin ret c \/ in_streaks a c \/ in_streaks b c \/ in_streaks e c).
Proof.
  intros Hr Ha Hb He Hn. unfold merge3_rest.
  destruct a as [|sa a].
  { destruct (merge2way_valid d ret b e Hr Hb He) as (r' & H1 & H2 & H3). exists r'.
    split; [exact H1|]. split; [exact H2|]. intros c Hc. rewrite H3, ?in_streaks_nil by auto. tauto. }
  destruct b as [|sb b].
  { destruct (merge2way_valid d ret (sa :: a) e Hr Ha He) as (r' & H1 & H2 & H3). exists r'.
    split; [exact H1|]. split; [exact H2|]. intros c Hc. rewrite H3, ?in_streaks_nil by auto. tauto. }
  destruct e as [|se e]; [|destruct Hn as [Hn|[Hn|Hn]]; discriminate].
  destruct (merge2way_valid d ret (sa :: a) (sb :: b) Hr Ha Hb) as (r' & H1 & H2 & H3). exists r'.
  split; [exact H1|]. split; [exact H2|]. intros c Hc. rewrite H3, ?in_streaks_nil by auto. tauto.
Qed.

Lemma merge3way_valid d ret a b e : rvalid d ret -> dims_ok d a -> dims_ok d b -> dims_ok d e ->
  exists ret', merge3way ret a b e = Some ret' /\ rvalid d ret' /\
    forall c, length c = S d -> (rin ret' c <-> rin ret c \/ in_streaks a c \/ in_streaks b c \/ in_streaks e c).
Proof.
  intros Hr Ha Hb He. unfold merge3way.
  destruct a as [|sa a]; [apply merge3_rest_valid; auto|].
  destruct b as [|sb b]; [apply merge3_rest_valid; auto|].
  destruct e as [|se e]; [apply merge3_rest_valid; auto|].
  destruct (merge3_loop_valid d (length (sa :: a) + length (sb :: b) + length (se :: e)) ret (streak_default ret)
      (sa :: a) (sb :: b) (se :: e)) as (ret' & a' & b' & e' & H4 & H5 & H6 & H7 & H8 & H9 & H10); auto.
  { intros c H. now apply default_empty in H. }
  rewrite H4. destruct (merge3_rest_valid d ret' a' b' e') as (r2 & H11 & H12 & H13); auto.
  exists r2. split; auto. split; auto. intros c Hc. rewrite H13, H10 by auto. tauto.
Qed.

(** ** Difference *)

Lemma ok_cons d s l : streaks_ok d (s :: l) <->
  length (s_pre s) = d /\ s_x s < s_e s /\ (forall y, In y l -> streak_before s y) /\ streaks_ok d l.
Proof. unfold streaks_ok. rewrite ss_cons, Forall_cons_iff'. tauto. Qed.

Lemma before_disjoint s1 s2 c : streak_before s1 s2 -> in_streak s1 c -> in_streak s2 c -> False.
Proof.
  intros Hb (x & -> & Hx) (y & E & Hy). apply app_inj_tail in E. destruct E as [E ->].
  destruct Hb as [H|[_ H]]; [|lia]. rewrite E in H. eapply coord_lt_irrefl; eauto.
Qed.

(** [y] behind [s] does not meet anything that ends no later than [s]. *)
Lemma before_le_disjoint s y o c :
  streak_before s y -> coord_lt (s_pre o) (s_pre s) \/ (s_pre s = s_pre o /\ s_e o <= s_e s) ->
  in_streak y c -> in_streak o c -> False.
Proof.
  intros Hb Ho (x & -> & Hx) (z & E & Hz). apply app_inj_tail in E. destruct E as [E ->].
  destruct Hb as [H|[H H1]], Ho as [H2|[H2 H3]].
  - rewrite E in H. eapply coord_lt_irrefl, coord_lt_trans; eauto.
  - rewrite E, H2 in H. eapply coord_lt_irrefl; eauto.
  - rewrite <- E, H in H2. eapply coord_lt_irrefl; eauto.
  - lia.
Qed.

Lemma diff_loop_valid d : forall fuel ret cursor my other,
  (length my + length other < fuel)%nat -> rvalid d ret ->
  length (s_pre cursor) = d -> s_x cursor <= s_e cursor ->
  (forall y, In y my -> streak_before cursor y) -> streaks_ok d my -> streaks_ok d other ->
  exists r', diff_loop fuel ret cursor my other = Some r' /\ rvalid d r' /\
    forall c, length c = S d ->
      (rin r' c <-> rin ret c \/ ((in_streak cursor c \/ in_streaks my c) /\ ~ in_streaks other c)).
Proof.
  induction fuel as [|f IH]; intros ret cursor my other Hf Hr Hc Hxe Hbef Hmy Hoth; [lia|].
  destruct other as [|o other].
  - cbn [diff_loop]. destruct (insert_valid d ret cursor Hr Hc) as [H1 H2].
    destruct (insert_all_valid d my _ H1 (ok_dims _ _ Hmy)) as [H3 H4].
    eexists. split; [reflexivity|]. split; auto. intros c Hcl. rewrite H4, H2 by auto.
    rewrite in_streaks_nil. tauto.
  - cbn [diff_loop]. pose proof Hoth as Hoth'. apply ok_cons in Hoth'. destruct Hoth' as (Hol & Hoxe & Hob & Hok).
    set (hit := s_intersects cursor o) in *.
    set (ret1 := if hit then _ else ret).
    set (cursor1 := if hit then _ else cursor).
    assert (Hret1 : rvalid d ret1 /\ forall c, length c = S d ->
        (rin ret1 c \/ (in_streak cursor1 c /\ ~ in_streaks (o :: other) c) <->
         rin ret c \/ (in_streak cursor c /\ ~ in_streaks (o :: other) c))).
    { unfold ret1, cursor1. destruct hit eqn:Eh; [|split; auto; tauto].
      apply s_intersects_spec in Eh. destruct Eh as [Ep Ex].
      set (s1 := mkStreak (s_pre cursor) (s_x cursor) (Z.max (s_x cursor) (s_x o))).
      destruct (insert_valid d ret s1 Hr Hc) as [H1 H2]. split; auto.
      intros c Hcl. rewrite H2 by auto. destruct (coord_split c d Hcl) as (p & x & -> & Hp).
      rewrite in_streaks_cons. rewrite !in_streak_snoc. unfold s1; cbn [s_pre s_x s_e].
      assert (Hrest : p = s_pre cursor -> x < Z.max (s_x cursor) (s_x o) -> ~ in_streaks other (p ++ [x])).
      { intros -> Hx (y & Hy & Hin). apply in_streak_snoc in Hin. destruct Hin as [Epy Hin].
        apply Hob in Hy. destruct Hy as [Hy|[Hy Hy2]].
        - rewrite <- Epy, Ep in Hy. eapply coord_lt_irrefl; eauto.
        - lia. }
      split.
      - intros [[H|[-> H]]|[[-> H] H3]]; auto.
        + right. split; [split; auto; lia|]. intros [[_ H4]|H4]; [lia|]. apply Hrest in H4; auto. lia.
        + right. split; auto. split; auto. lia.
      - intros [H|[[-> H] H3]]; auto.
        destruct (Z.lt_ge_cases x (Z.max (s_x cursor) (s_x o))).
        + left; right. split; auto; lia.
        + right. split; auto. split; auto. split; [|lia].
          destruct (Z.le_gt_cases (Z.min (s_e cursor) (s_e o)) x); auto. exfalso. apply H3.
          left. split; auto. lia. }
    destruct Hret1 as [Hv1 Hm1].
    assert (Hc1 : length (s_pre cursor1) = d /\ s_pre cursor1 = s_pre cursor /\ s_e cursor1 = s_e cursor /\
                  s_x cursor1 <= s_e cursor1).
    { unfold cursor1. destruct hit; cbn; repeat (split; auto). lia. }
    destruct Hc1 as (Hc1l & Hc1p & Hc1e & Hc1x).
    (* after the cut the cursor does not meet [o] unless it starts before and ends after *)
    assert (Hcut : forall x, s_pre cursor = s_pre o -> s_x cursor1 <= x < s_e cursor1 -> s_x o <= x < s_e o -> False).
    { intros x Ep. unfold cursor1, hit. destruct (s_intersects cursor o) eqn:Eh; cbn.
      - apply s_intersects_spec in Eh. lia.
      - intros Hx Hy. assert (s_intersects cursor o = true); [|congruence].
        apply s_intersects_spec. split; auto. lia. }
    destruct (s_less cursor1 o) eqn:El.
    + apply (s_less_spec d) in El; auto. rewrite Hc1p, Hc1e in El.
      (* cursor1 is disjoint from all of other *)
      assert (Hdis : forall c, in_streak cursor1 c -> ~ in_streaks (o :: other) c).
      { intros c (x & -> & Hx). rewrite Hc1p. rewrite in_streaks_cons. intros [H|(y & Hy & H)].
        - apply in_streak_snoc in H. destruct H as [E H]. eapply Hcut; eauto.
        - apply in_streak_snoc in H. destruct H as [E H]. apply Hob in Hy.
          destruct El as [El|[E2 El]], Hy as [Hy|[E3 Hy]].
          + rewrite E in El. eapply coord_lt_irrefl, coord_lt_trans; eauto.
          + rewrite E, E3 in El. eapply coord_lt_irrefl; eauto.
          + rewrite <- E, E2 in Hy. eapply coord_lt_irrefl; eauto.
          + lia. }
      destruct (insert_valid d ret1 cursor1 Hv1 Hc1l) as [Hv2 Hm2].
      destruct my as [|m my].
      * destruct (insert_valid d (reg_insert ret1 cursor1) cursor1 Hv2 Hc1l) as [Hv3 Hm3].
        eexists. split; [reflexivity|]. split; auto.
        intros c Hcl. rewrite Hm3, Hm2 by auto. rewrite (in_streaks_nil c).
        specialize (Hm1 c Hcl). specialize (Hdis c). tauto.
      * apply ok_cons in Hmy. destruct Hmy as (Hml & Hmx & Hmb & Hmok).
        destruct (IH (reg_insert ret1 cursor1) m my (o :: other)) as (r' & H1 & H2 & H3); auto;
          [cbn in *; lia|lia|].
        exists r'. split; auto. split; auto. intros c Hcl.
        rewrite H3, Hm2 by auto. rewrite (in_streaks_cons m my).
        specialize (Hm1 c Hcl). specialize (Hdis c). tauto.
    + apply (s_less_false d) in El; auto. rewrite Hc1p, Hc1e in El.
      destruct (IH ret1 cursor1 my other) as (r' & H1 & H2 & H3); auto.
      { cbn in *; lia. }
      { intros y Hy. specialize (Hbef y Hy). unfold streak_before in *. rewrite Hc1p, Hc1e. auto. }
      exists r'. split; auto. split; auto. intros c Hcl. rewrite H3 by auto.
      specialize (Hm1 c Hcl). rewrite in_streaks_cons in *.
      assert (Hcd : in_streak cursor1 c -> ~ in_streak o c).
      { intros (x & -> & Hx) H. rewrite Hc1p in H. apply in_streak_snoc in H. destruct H as [E H].
        eapply Hcut; eauto. }
      assert (Hmd : in_streaks my c -> ~ in_streak o c).
      { intros (y & Hy & Hyc) H. eapply before_le_disjoint with (s := cursor) (y := y) (o := o); eauto. }
      tauto.
Qed.

Lemma reg_diff_valid d a b : rvalid d a -> rvalid d b ->
  exists r, reg_diff a b = Some r /\ rvalid d r /\
    forall c, length c = S d -> (rin r c <-> rin a c /\ ~ rin b c).
Proof.
  intros Ha Hb. unfold reg_diff.
  destruct (streaks_valid d a Ha) as (la & Hoka & Hina & Hla & _ & Hpa).
  destruct (streaks_valid d b Hb) as (lb & Hokb & Hinb & Hlb & _ & Hpb).
  pose proof (valid_length d a Ha) as Hda. rewrite Hda.
  destruct (reg_is_empty a) eqn:Ea.
  { apply (in_streaks_empty d a la Ha Hpa) in Ea. subst la.
    eexists. split; [reflexivity|]. split; [apply rvalid_empty|]. intros c Hc.
    rewrite (Hina c Hc), in_streaks_nil. pose proof (rin_empty d c Hc). tauto. }
  destruct (reg_is_empty b) eqn:Eb.
  { apply (in_streaks_empty d b lb Hb Hpb) in Eb. subst lb.
    eexists. split; [reflexivity|]. split; [auto|]. intros c Hc.
    rewrite (Hinb c Hc), in_streaks_nil. tauto. }
  rewrite Hla, Hlb. cbn [obind]. destruct la as [|m my].
  { assert (reg_is_empty a = true) by (apply (in_streaks_empty d a [] Ha Hpa); auto). congruence. }
  apply ok_cons in Hoka. destruct Hoka as (Hml & Hmx & Hmb & Hmok).
  destruct (diff_loop_valid d (length (m :: my) + length lb) (reg_empty (S d)) m my lb) as (r & H1 & H2 & H3); auto.
  { apply rvalid_empty. } { lia. }
  exists r. split; auto. split; auto. intros c Hc. rewrite H3, Hina, Hinb by auto.
  rewrite in_streaks_cons. pose proof (rin_empty d c Hc). tauto.
Qed.

(** ** Intersection *)

Lemma isect_loop_valid d : forall fuel ret my other,
  (length my + length other <= fuel)%nat -> rvalid d ret -> streaks_ok d my -> streaks_ok d other ->
  exists r', isect_loop fuel ret my other = Some r' /\ rvalid d r' /\
    forall c, length c = S d -> (rin r' c <-> rin ret c \/ (in_streaks my c /\ in_streaks other c)).
Proof.
  induction fuel as [|f IH]; intros ret my other Hf Hr Hmy Hoth.
  - destruct my; [|cbn in Hf; lia]. exists ret. cbn. repeat (split; auto). all: rewrite ?in_streaks_nil in *; tauto.
  - destruct my as [|m my].
    { exists ret. cbn. repeat (split; auto). all: rewrite ?in_streaks_nil in *; tauto. }
    destruct other as [|o other].
    { exists ret. cbn. repeat (split; auto). all: rewrite ?in_streaks_nil in *; tauto. }
    cbn [isect_loop].
    pose proof Hmy as Hmy'. pose proof Hoth as Hoth'.
    apply ok_cons in Hmy'. apply ok_cons in Hoth'.
    destruct Hmy' as (Hml & Hmx & Hmb & Hmok), Hoth' as (Hol & Hoxe & Hob & Hok).
    set (ret' := if s_intersects m o then _ else ret).
    assert (Hret : rvalid d ret' /\ forall c, length c = S d ->
        (rin ret' c <-> rin ret c \/ (in_streak m c /\ in_streak o c))).
    { unfold ret'. destruct (s_intersects m o) eqn:Eh.
      - apply s_intersects_spec in Eh. destruct Eh as [Ep Ex].
        set (s1 := mkStreak _ _ _).
        destruct (insert_valid d ret s1 Hr Hml) as [H1 H2]. split; auto.
        intros c Hcl. rewrite H2 by auto. destruct (coord_split c d Hcl) as (p & x & -> & Hp).
        rewrite !in_streak_snoc. unfold s1; cbn [s_pre s_x s_e]. rewrite <- Ep.
        split; intros [H|H]; auto; right; repeat split; try tauto; lia.
      - split; auto. intros c Hcl. split; auto. intros [H|[H1 H2]]; auto. exfalso.
        destruct (coord_split c d Hcl) as (p & x & -> & Hp). rewrite !in_streak_snoc in *.
        assert (s_intersects m o = true); [|congruence]. apply s_intersects_spec.
        destruct H1 as [-> H1], H2 as [H3 H2]. split; auto. lia. }
    destruct Hret as [Hv Hm].
    destruct (s_less m o) eqn:El.
    + apply (s_less_spec d) in El; auto.
      destruct (IH ret' my (o :: other)) as (r' & H1 & H2 & H3); auto; [cbn in *; lia|].
      exists r'. split; auto. split; auto. intros c Hcl. rewrite H3, Hm by auto.
      rewrite !in_streaks_cons.
      assert (in_streak m c -> ~ in_streaks other c).
      { intros Hin (y & Hy & Hyc). eapply before_le_disjoint with (s := o) (y := y) (o := m); eauto.
        destruct El as [El|[E El]]; [left; auto|right; split; [congruence|lia]]. }
      tauto.
    + apply (s_less_false d) in El; auto.
      destruct (IH ret' (m :: my) other) as (r' & H1 & H2 & H3); auto; [cbn in *; lia|].
      exists r'. split; auto. split; auto. intros c Hcl. rewrite H3, Hm by auto.
      rewrite !in_streaks_cons.
      assert (in_streak o c -> ~ in_streaks my c).
      { intros Hin (y & Hy & Hyc). eapply before_le_disjoint with (s := m) (y := y) (o := o); eauto. }
      tauto.
Qed.

Lemma reg_isect_valid d a b : rvalid d a -> rvalid d b ->
  exists r, reg_isect a b = Some r /\ rvalid d r /\
    forall c, length c = S d -> (rin r c <-> rin a c /\ rin b c).
Proof.
  intros Ha Hb. unfold reg_isect.
  destruct (streaks_valid d a Ha) as (la & Hoka & Hina & Hla & _ & Hpa).
  destruct (streaks_valid d b Hb) as (lb & Hokb & Hinb & Hlb & _ & Hpb).
  rewrite (valid_length d a Ha), Hla, Hlb. cbn [obind].
  destruct (isect_loop_valid d (length la + length lb) (reg_empty (S d)) la lb) as (r & H1 & H2 & H3); auto.
  { apply rvalid_empty. }
  exists r. split; auto. split; auto. intros c Hc. rewrite H3, Hina, Hinb by auto.
  pose proof (rin_empty d c Hc). tauto.
Qed.

(** ** Union *)

Lemma keys_last_def r : widx r -> r <> [] -> last r [] <> [] ->
  forall off al, length off = length r -> it_keys r (map (fun v => (length v - 1)%nat) r) off al <> None.
Proof.
  induction r as [|v r IH]; intros Hw Hr Hl off al Ho; [congruence|].
  destruct off as [|o off]; [discriminate|]. injection Ho as Ho.
  destruct r as [|w r].
  - destruct off; [|discriminate]. cbn in *. destruct (nth_error v (length v - 1)) eqn:E; [congruence|].
    apply nth_error_None in E. destruct v; [congruence|cbn in E; lia].
  - cbn [map]. rewrite it_keys_S. rewrite last_cons in Hl by congruence.
    pose proof (locate_zero (w :: r)) as Hlz.
    apply widx_S in Hw. destruct Hw as (_ & _ & Hne & Hw).
    destruct (Hlz Hw Hl) as [_ Hh]. cbn [hd] in Hh. specialize (Hne Hh).
    destruct (nth_error v (length v - 1)) eqn:E.
    + specialize (IH Hw). cbn [map] in IH.
      destruct (it_keys (w :: r) _ off al) as [[]|] eqn:E2; [congruence|].
      exfalso. eapply (IH ltac:(congruence) Hl off al Ho). exact E2.
    + apply nth_error_None in E. destruct v; [congruence|cbn in E; lia].
Qed.

Lemma is_appendable_def d a b : rvalid d a -> rvalid d b -> exists q, is_appendable a b = Some q.
Proof.
  intros Ha Hb. unfold is_appendable.
  destruct (reg_is_empty b) eqn:Eb; cbn [orb]; [eauto|].
  destruct (reg_is_empty a) eqn:Ea; [eauto|].
  assert (Hzl : length (zero_off a) = length a) by (rewrite zero_off_repeat, repeat_length; auto).
  pose proof (valid_length _ _ Ha) as Hla. pose proof (valid_length _ _ Hb) as Hlb.
  assert (Hd := fun t Hw E => keys_last_def a (eq_rect _ widx (widx_tree d t Hw) _ (eq_sym E))).
  destruct Ha as (t & Hw & E). specialize (Hd t Hw E).
  unfold it_construct. destruct (it_keys a _ (zero_off a) 0) as [[pre [x e]]|] eqn:Ek.
  2:{ exfalso. eapply Hd; eauto.
      - apply length_nonnil with d; auto.
      - unfold reg_is_empty in Ea. destruct (last a []); [discriminate|congruence]. }
  cbn [obind].
  destruct (streaks_valid d b Hb) as (lb & _ & _ & Hlb2 & _ & _).
  unfold reg_streaks, reg_streaks_off in Hlb2.
  destruct (it_begin b (zero_off b) 0); [|discriminate]. cbn [obind]. eauto.
Qed.

Lemma reg_union_valid d a b : rvalid d a -> rvalid d b ->
  exists r, reg_union a b = Some r /\ rvalid d r /\
    forall c, length c = S d -> (rin r c <-> rin a c \/ rin b c).
Proof.
  intros Ha Hb. unfold reg_union.
  destruct (streaks_valid d a Ha) as (la & Hoka & Hina & Hla & _ & Hpa).
  destruct (streaks_valid d b Hb) as (lb & Hokb & Hinb & Hlb & _ & Hpb).
  destruct (reg_is_empty b) eqn:Eb.
  { apply (in_streaks_empty d b lb Hb Hpb) in Eb. subst lb. exists a.
    split; [reflexivity|]. split; [auto|]. intros c Hc. rewrite (Hinb c Hc), in_streaks_nil. tauto. }
  destruct (reg_is_empty a) eqn:Ea.
  { apply (in_streaks_empty d a la Ha Hpa) in Ea. subst la. exists b.
    split; [reflexivity|]. split; [auto|]. intros c Hc. rewrite (Hina c Hc), in_streaks_nil. tauto. }
  rewrite Hla, Hlb. cbn [obind].
  destruct (is_appendable_def d a b Ha Hb) as [q1 ->]. cbn [obind]. destruct q1.
  { destruct (insert_all_valid d lb a Ha (ok_dims _ _ Hokb)) as [H1 H2].
    eexists. split; [reflexivity|]. split; auto. intros c Hc. rewrite H2, Hinb by auto. tauto. }
  destruct (is_appendable_def d b a Hb Ha) as [q2 ->]. cbn [obind]. destruct q2.
  { destruct (insert_all_valid d la b Hb (ok_dims _ _ Hoka)) as [H1 H2].
    eexists. split; [reflexivity|]. split; auto. intros c Hc. rewrite H2, Hina by auto. tauto. }
  rewrite (valid_length d a Ha).
  destruct (merge2way_valid d (reg_empty (S d)) la lb (rvalid_empty d) (ok_dims _ _ Hoka) (ok_dims _ _ Hokb))
    as (r & H1 & H2 & H3).
  exists r. split; auto. split; auto. intros c Hc. rewrite H3, Hina, Hinb by auto.
  pose proof (rin_empty d c Hc). tauto.
Qed.

Lemma reg_union_assign_valid d a b : rvalid d a -> rvalid d b ->
  exists r, reg_union_assign a b = Some r /\ rvalid d r /\
    forall c, length c = S d -> (rin r c <-> rin a c \/ rin b c).
Proof.
  intros Ha Hb. pose proof (reg_union_valid d a b Ha Hb) as H. unfold reg_union in H.
  unfold reg_union_assign. destruct (reg_is_empty b); auto. destruct (reg_is_empty a); auto.
  destruct (reg_streaks a); auto. destruct (reg_streaks b); auto. cbn [obind] in *.
  destruct (is_appendable a b) as [q1|]; auto. cbn [obind] in *. destruct q1; auto.
  destruct (is_appendable b a) as [q2|]; auto. cbn [obind] in *. destruct q2; auto.
  apply reg_union_valid; auto.
Qed.
