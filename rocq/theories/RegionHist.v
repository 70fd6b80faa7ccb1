(** Proofs on histories. *)
From Verif Require Import Base ListFacts RegionSpec RegionModel RegionTree RegionFlat RegionEnc RegionRep
  RegionIterModel RegionIter RegionStreaks CoordModel CoordSpec RegionOpsModel RegionOps CoordFacts RegionHistory.

Lemma coord_streak_in d c c' : length c = S d -> length c' = S d -> (in_streak (coord_streak c) c' <-> c' = c).
Proof.
  intros H H'. destruct (coord_split c d H) as (p & x & -> & Hp). rewrite coord_streak_snoc.
  destruct (coord_split c' d H') as (p' & x' & -> & Hp'). rewrite in_streak_snoc. cbn.
  split; [intros [-> Hx]; do 2 f_equal; lia|]. intros E. apply app_inj_tail in E. destruct E; subst. split; auto; lia.
Qed.

Lemma coord_streak_pre d c : length c = S d -> length (s_pre (coord_streak c)) = d.
Proof. intros H. destruct (coord_split c d H) as (p & x & -> & Hp). rewrite coord_streak_snoc. auto. Qed.

Lemma last_in {A} (l : list A) dft : l <> [] -> In (last l dft) l.
Proof.
  induction l as [|a l IH]; [congruence|]. intros _. destruct l; [left; auto|].
  right. change (In (last (a0 :: l) dft) (a0 :: l)). apply IH. congruence.
Qed.

Lemma regular_streakable n b : length (b_origin b) = n -> length (b_dim b) = n -> rows_regular b -> box_streakable n b /\
  prod (b_dim (origins_box b)) <= prod (removelast (b_dim b)).
Proof.
  intros Ho Hd Hr. unfold box_streakable. unfold rows_regular in Hr. unfold box_regular, origins_box. cbn [b_origin b_dim].
  destruct (b_dim b) as [|m [|m2 ms]] eqn:E; try tauto.
  - split; [repeat split; auto; cbn; destruct (0 <? m); lia|]. cbn. destruct (0 <? m); lia.
  - destruct Hr as [Hm Hms]. split.
    + split; auto. change (removelast (m :: m2 :: ms)) with (m :: removelast (m2 :: ms)).
      split.
      * pose proof (snoc_of (m2 :: ms) 0 (length ms) eq_refl) as Es.
        apply (f_equal (@length Z)) in Es. rewrite app_length in *. cbn [length] in *. lia.
      * cbn [app]. split; auto. apply Forall_app. split; auto. constructor; auto; lia.
    + rewrite prod_app1. lia.
Qed.

Lemma run_rop_valid d r op fuel : rvalid d r -> rop_ok (S d) op -> (rop_fuel op <= fuel)%nat ->
  exists r', run_rop fuel r op = Some r' /\ rvalid d r' /\
    forall c, length c = S d -> (rin r' c <-> inserts op c \/ (rin r c /\ ~ removes op c)).
Proof.
  intros Hr Hok Hf. destruct op as [c0|s|b|c0|s|b]; cbn [run_rop inserts removes rop_ok rop_fuel] in *.
  - destruct (insert_valid d r (coord_streak c0) Hr (coord_streak_pre d c0 Hok)) as [H1 H2].
    eexists; split; [reflexivity|]. split; auto. intros c Hc. unfold reg_insert_coord.
    rewrite H2, (coord_streak_in d) by auto. tauto.
  - injection Hok as Hok. destruct (insert_valid d r s Hr Hok) as [H1 H2].
    eexists; split; [reflexivity|]. split; auto. intros c Hc. rewrite H2 by auto. tauto.
  - destruct Hok as (Ho & Hd & Hrr). destruct (regular_streakable (S d) b Ho Hd Hrr) as [Hs Hff].
    destruct (insert_box_valid d r b fuel Hr Ho Hd Hs) as (r' & H1 & H2 & H3); [lia|].
    exists r'. split; auto. split; auto. intros c Hc. rewrite H3 by auto. tauto.
  - destruct (remove_valid d r (coord_streak c0) Hr (coord_streak_pre d c0 Hok)) as [H1 H2].
    eexists; split; [reflexivity|]. split; auto. intros c Hc. unfold reg_remove_coord.
    rewrite H2, (coord_streak_in d) by auto. tauto.
  - injection Hok as Hok. destruct (remove_valid d r s Hr Hok) as [H1 H2].
    eexists; split; [reflexivity|]. split; auto. intros c Hc. rewrite H2 by auto. tauto.
  - destruct Hok as (Ho & Hd & Hrr). destruct (regular_streakable (S d) b Ho Hd Hrr) as [Hs Hff].
    destruct (remove_box_valid d r b fuel Hr Ho Hd Hs) as (r' & H1 & H2 & H3); [lia|].
    exists r'. split; auto. split; auto. intros c Hc. rewrite H3 by auto. tauto.
Qed.

Lemma inside_dec o : forall dm c, {inside o dm c} + {~ inside o dm c}.
Proof.
  induction o as [|x o IH]; intros [|n dm] [|y c]; cbn; try (right; tauto); [left; auto|].
  destruct (IH dm c); [|right; tauto]. destruct (Z_le_dec x y), (Z_lt_dec y (x + n)); try (right; lia). left; auto.
Qed.

Lemma in_streak_dec d s c : length c = S d -> {in_streak s c} + {~ in_streak s c}.
Proof.
  intros Hc. assert (E : c = removelast c ++ [last c 0]) by (apply app_removelast_last; intros ->; discriminate).
  destruct (list_eq_dec Z.eq_dec (removelast c) (s_pre s)) as [E1|E1].
  - destruct (Z_le_dec (s_x s) (last c 0)), (Z_lt_dec (last c 0) (s_e s)).
    + left. rewrite E. apply in_streak_snoc. auto.
    + right. intros H. rewrite E in H. apply in_streak_snoc in H. lia.
    + right. intros H. rewrite E in H. apply in_streak_snoc in H. lia.
    + right. intros H. rewrite E in H. apply in_streak_snoc in H. lia.
  - right. intros H. rewrite E in H. apply in_streak_snoc in H. tauto.
Qed.

Lemma removes_dec d op c : length c = S d -> {removes op c} + {~ removes op c}.
Proof.
  intros Hc. destruct op; cbn; try (right; tauto).
  - apply list_eq_dec, Z.eq_dec.
  - now apply (in_streak_dec d).
  - apply inside_dec.
Qed.

Lemma last_inserted_snoc d h op c : length c = S d ->
  (last_inserted (h ++ [op]) c <-> inserts op c \/ (last_inserted h c /\ ~ removes op c)).
Proof.
  intros Hc. unfold last_inserted. split.
  - intros (h1 & op1 & h2 & E & Hi & Hr). destruct (list_snoc_cases h2) as [->|(h2' & z & ->)].
    + apply app_inj_tail in E. destruct E as [-> ->]. auto.
    + right. rewrite app_comm_cons, app_assoc in E. apply app_inj_tail in E. destruct E as [-> ->]. split.
      * exists h1, op1, h2'. repeat split; auto. intros op' Hin. apply Hr. apply in_app_iff; auto.
      * apply Hr. apply in_app_iff. right; left; auto.
  - intros [H|[(h1 & op1 & h2 & -> & Hi & Hr) Hn]].
    + exists h, op, []. split; [reflexivity|]. split; auto.
    + exists h1, op1, (h2 ++ [op]). split; [now rewrite <- app_assoc|]. split; auto.
      intros op' Hin. apply in_app_iff in Hin. destruct Hin as [Hin|[<-|[]]]; auto.
Qed.

Lemma run_history_app fuel h1 : forall r h2,
  run_history fuel r (h1 ++ h2) = obind (run_history fuel r h1) (fun r' => run_history fuel r' h2).
Proof.
  induction h1 as [|op h1 IH]; intros r h2; auto. cbn. destruct (run_rop fuel r op); cbn; auto.
Qed.

Lemma history_valid d : forall h fuel, Forall (rop_ok (S d)) h -> (history_fuel h <= fuel)%nat ->
  exists r, run_history fuel (reg_empty (S d)) h = Some r /\ rvalid d r /\
    forall c, length c = S d -> (rin r c <-> last_inserted h c).
Proof.
  induction h as [|op h IH] using rev_ind; intros fuel Hok Hf.
  - exists (reg_empty (S d)). split; auto. split; [apply rvalid_empty|]. intros c Hc.
    split; [intros H; now apply rin_empty in H|]. intros (h1 & op & h2 & E & _). now destruct h1.
  - apply Forall_app in Hok. destruct Hok as [Hh Hop]. apply Forall_cons_iff' in Hop. destruct Hop as [Hop _].
    assert (Hfs : (history_fuel h <= fuel)%nat /\ (rop_fuel op <= fuel)%nat).
    { unfold history_fuel in *. rewrite fold_right_app in Hf. cbn [fold_right] in Hf.
      assert (forall l k, (fold_right (fun op n => (rop_fuel op + n)%nat) k l =
                 fold_right (fun op n => (rop_fuel op + n)%nat) O l + k)%nat).
      { clear. induction l; intros; cbn; auto. rewrite IHl. lia. }
      rewrite H in Hf. lia. }
    destruct Hfs as [Hf1 Hf2]. destruct (IH fuel Hh Hf1) as (r & H1 & H2 & H3).
    destruct (run_rop_valid d r op fuel H2 Hop Hf2) as (r' & H4 & H5 & H6).
    exists r'. rewrite run_history_app, H1. cbn [obind run_history]. rewrite H4. cbn [obind]. split; auto. split; auto.
    intros c Hc. rewrite H6, H3, (last_inserted_snoc d) by auto. tauto.
Qed.
