(** Properties C199 to C201: exchange of data between nodes on top of HPX. *)
From Coq Require Import Permutation.
From Verif Require Import Base ListFacts PatchModel PatchSpec PatchFacts LinkSpec HpxLinkModel HpxLinkSpec HpxLinkFacts.

(** The invariant of a run. *)
Definition hhist_ok {C} (cs : list coord) first stride last (l : hlink C) (h : lhist C) : Prop :=
  hrel cs first stride last (h_sent h) (length (h_got h)) l /\
  (forall k t g g', nth_error (h_got h) k = Some (t, (g, g')) ->
     t = link_step_no first stride k /\
     exists src, nth_error (h_sent h) k = Some (t, src) /\
       (forall c, In c cs -> g' c = src c) /\ (forall c, ~ In c cs -> g' c = g c)).

Lemma hstep_ok {C} cs first stride last (l l' : hlink C) h h' e : (1 <= stride)%nat ->
  hhist_ok cs first stride last l h -> hstep cs l h e = LDone (l', h') -> hhist_ok cs first stride last l' h'.
Proof.
  intros Hst [R Hg] E. destruct e as [g t|i|g t]; cbn [hstep] in E.
  - pose proof (put_spec cs first stride last Hst _ _ l g t R) as HP. destruct (hlink_put cs l g t) as [l1| |]; try discriminate.
    destruct HP as [(H1 & -> & _)|(H1 & R1 & _)].
    + destruct (check_put (hl_req l) t); try congruence; injection E as <- <-; split; auto.
    + rewrite H1 in E. injection E as <- <-. split; [exact R1|]. cbn [h_got h_sent]. intros k s g0 g1 Hk.
      destruct (Hg k s g0 g1 Hk) as (H2 & src & H3 & H4). split; [auto|]. exists src. split; [|auto].
      rewrite nth_error_app1; auto. apply nth_error_Some. congruence.
  - pose proof (arrive_rel cs first stride last Hst _ _ l i R) as HA. destruct (hlink_arrive l i) as [l1| |]; try discriminate.
    injection E as <- <-. split; [tauto|auto].
  - pose proof (get_spec cs first stride last Hst _ _ l g t R) as HG. destruct (hlink_get cs l g t) as [[l1 g1]| |]; try discriminate.
    destruct HG as [(H1 & -> & -> & _)|(H1 & -> & Hd & src & H2 & R1 & _ & H3)]; rewrite H1 in E; injection E as <- <-; [split; auto|].
    unfold hhist_ok. cbn [h_got h_sent]. rewrite app_length. cbn [length]. rewrite Nat.add_1_r. split; [exact R1|].
    intros k s g0 g' Hk. destruct (Nat.lt_ge_cases k (length (h_got h))) as [Hl|Hl].
    + rewrite nth_error_app1 in Hk by auto. eapply Hg; eauto.
    + rewrite nth_error_app2 in Hk by auto. destruct (k - length (h_got h))%nat as [|j] eqn:Ej; cbn in Hk; [|destruct j; discriminate].
      injection Hk as <- <- <-. assert (k = length (h_got h)) by lia. subst k. split; [auto|]. exists src. auto.
Qed.

Lemma hrun_ok {C} cs first stride last es : (1 <= stride)%nat -> forall (l l' : hlink C) h h',
  hhist_ok cs first stride last l h -> hrun cs l h es = LDone (l', h') -> hhist_ok cs first stride last l' h'.
Proof.
  intros Hst. induction es as [|e es IH]; intros l l' h h' R E; cbn [hrun] in E; [injection E as <- <-; auto|].
  destruct (hstep cs l h e) as [[l1 h1]| |] eqn:E1; try discriminate. eapply IH; [|exact E]. eapply hstep_ok; eauto.
Qed.

Lemma hrun_charge {C} cs first stride last es (l : hlink C) h : (1 <= stride)%nat ->
  hrun cs (hlink_charge first last stride) (mkHist [] []) es = LDone (l, h) -> hhist_ok cs first stride last l h.
Proof.
  intros Hst E. eapply hrun_ok; eauto. split; [apply charge_hrel; auto|]. intros [|k]; discriminate.
Qed.

(** C199: whatever the order in which parcels arrive, the [k]-th halo received
    is the [k]-th one sent and both are for the [k]-th step; the parcels never
    collide, the sender never waits, and the receiver waits only for parcels
    which haven't been sent or haven't arrived. *)
Theorem C199_hpx_link C (cs : list coord) first stride last es (l : hlink C) h :
  (1 <= stride)%nat ->
  hrun cs (hlink_charge first last stride) (mkHist [] []) es = LDone (l, h) ->
  (forall k t g, nth_error (h_sent h) k = Some (t, g) ->
     t = link_step_no first stride k /\ link_due first stride last k = true) /\
  (forall k t g g', nth_error (h_got h) k = Some (t, (g, g')) ->
     t = link_step_no first stride k /\
     exists src, nth_error (h_sent h) k = Some (t, src) /\
       (forall c, In c cs -> g' c = src c) /\ (forall c, ~ In c cs -> g' c = g c)) /\
  (** arrivals never fail, offers never wait and fail only if a step was left out *)
  (forall i, hlink_arrive l i <> LThrow) /\
  (forall g t, hlink_put cs l g t <> LWait) /\
  (forall g t, (t <= link_step_no first stride (length (h_sent h)))%nat -> hlink_put cs l g t <> LThrow) /\
  (forall g t, (t <= link_step_no first stride (length (h_got h)))%nat -> hlink_get cs l g t <> LThrow) /\
  (** what was sent and has arrived can be fetched *)
  ((length (h_got h) < length (h_sent h))%nat -> hl_net l = [] ->
     forall g, exists l' g', hlink_get cs l g (link_step_no first stride (length (h_got h))) = LDone (l', g') /\
       hl_sto l' <> hl_sto l) /\
  (** and after that nothing is left over *)
  (length (h_got h) = length (h_sent h) -> hl_net l = [] /\ hl_in l = []) /\
  (link_due first stride last (length (h_got h)) = false -> length (h_got h) = length (h_sent h) /\ hl_req l = [] /\ hl_sto l = []).
Proof.
  intros Hst E. apply hrun_charge in E; [|auto]. destruct E as [R Hg].
  split; [|split; [|split; [|split; [|split; [|split; [|split; [|split]]]]]]].
  - intros k t g Hk. apply (hr_sent _ _ _ _ _ _ _ R) in Hk. exact Hk.
  - exact Hg.
  - intros i. pose proof (arrive_rel cs first stride last Hst _ _ l i R) as HA. destruct (hlink_arrive l i); [discriminate..|tauto].
  - intros g t. pose proof (put_spec cs first stride last Hst _ _ l g t R) as HP. destruct (hlink_put cs l g t); [discriminate|tauto|discriminate].
  - intros g t Ht. pose proof (put_spec cs first stride last Hst _ _ l g t R) as HP. destruct (hlink_put cs l g t); [discriminate..|lia].
  - intros g t Ht. pose proof (get_spec cs first stride last Hst _ _ l g t R) as HG. destruct (hlink_get cs l g t); [discriminate..|lia].
  - intros Hlt Hnet g. pose proof (get_spec cs first stride last Hst _ _ l g (link_step_no first stride (length (h_got h))) R) as HG.
    destruct (nth_error (h_sent h) (length (h_got h))) as [x|] eqn:Ex; [|apply nth_error_None in Ex; lia].
    destruct (hr_sent _ _ _ _ _ _ _ R _ _ Ex) as [_ Hd].
    destruct (hlink_get cs l g _) as [[l' g']| |].
    + do 2 eexists. split; [reflexivity|]. destruct HG as [(_ & _ & _ & [H|H])|(_ & _ & _ & src & _ & R1 & _)]; [lia|congruence|].
      rewrite (hr_sto _ _ _ _ _ _ _ R), (hr_sto _ _ _ _ _ _ _ R1), Hd. destruct (link_due first stride last (S (length (h_got h)))); [|discriminate].
      intros H. injection H as H. unfold link_step_no in H. nia.
    + destruct HG as (_ & _ & [H|(m & Hm & _)]); [lia|]. rewrite Hnet in Hm. destruct Hm.
    + lia.
  - intros Hl. pose proof (hr_msgs _ _ _ _ _ _ _ R) as Hp. rewrite Hl, skipn_all in Hp. cbn in Hp. apply Permutation_sym, Permutation_nil in Hp.
    now apply app_eq_nil.
  - intros Hd. pose proof (hr_le _ _ _ _ _ _ _ R) as Hle.
    assert (Hl : length (h_got h) = length (h_sent h)).
    { destruct (Nat.eq_dec (length (h_got h)) (length (h_sent h))); auto.
      destruct (nth_error (h_sent h) (length (h_got h))) as [x|] eqn:Ex; [|apply nth_error_None in Ex; lia].
      destruct (hr_sent _ _ _ _ _ _ _ R _ _ Ex). congruence. }
    split; [auto|]. rewrite (hr_req _ _ _ _ _ _ _ R), (hr_sto _ _ _ _ _ _ _ R), <- Hl, Hd. auto.
Qed.
Print Assumptions C199_hpx_link.

(** ** Several links at a time *)

Definition is_done (todo left : list nat) (i : nat) : bool := existsb (Nat.eqb i) todo && negb (existsb (Nat.eqb i) left).

Lemma existsb_In i l : existsb (Nat.eqb i) l = true <-> In i l.
Proof.
  rewrite existsb_exists. split; [intros (x & Hx & E); apply Nat.eqb_eq in E; now subst|]. intros H. exists i. split; [auto|apply Nat.eqb_refl].
Qed.

Section Notify.
Context {C : Type} (ps : list (list coord * hlink C)) (hs : list (lhist C)) (t : nat) (g : grid C).
Hypothesis Hused : Forall2 (fun p h => used (fst p) (snd p) h) ps hs.

Definition asked (i : nat) : Prop := exists cs l, nth_error ps i = Some (cs, l) /\ next_available l = Some t.

Lemma start_spec (ps' : list (list coord * hlink C)) : (forall p, In p ps' -> exists h, used (fst p) (snd p) h) -> forall k,
  exists todo, notify_start k ps' t = Some todo /\
    forall i, In i todo <-> exists cs l, (k <= i)%nat /\ nth_error ps' (i - k) = Some (cs, l) /\ next_available l = Some t.
Proof.
  clear Hused. induction ps' as [|[cs l] ps' IH]; intros Hu k; cbn [notify_start].
  - exists []. split; [auto|]. intros i. split; [intros []|]. intros (cs & l & _ & H & _). destruct (i - k)%nat; discriminate.
  - destruct (IH (fun p Hp => Hu p (or_intror Hp)) (S k)) as (todo & E & HT). rewrite E. cbn [option_map].
    assert (Hrest : forall i, In i todo <-> i <> k /\ exists cs' l', (k <= i)%nat /\ nth_error ((cs, l) :: ps') (i - k) = Some (cs', l') /\ next_available l' = Some t).
    { intros i. rewrite HT. split.
      - intros (cs' & l' & H1 & H2 & H3). split; [lia|]. exists cs', l'. split; [lia|]. split; [|auto].
        now replace (i - k)%nat with (S (i - S k)) by lia.
      - intros (H0 & cs' & l' & H1 & H2 & H3). exists cs', l'. split; [lia|]. split; [|auto].
        now replace (i - k)%nat with (S (i - S k)) in H2 by lia. }
    assert (Hself : forall cs' l', nth_error ((cs, l) :: ps') (k - k) = Some (cs', l') -> cs' = cs /\ l' = l).
    { intros cs' l'. rewrite Nat.sub_diag. cbn. intros H. now injection H as <- <-. }

    assert (Hno : next_available l <> Some t -> exists todo', Some todo = Some todo' /\ (forall i, In i todo' <-> exists cs' l', (k <= i)%nat /\ nth_error ((cs, l) :: ps') (i - k) = Some (cs', l') /\ next_available l' = Some t)).
    { intros Hne. exists todo. split; [auto|]. intros i. rewrite Hrest. split; [tauto|]. intros Hi. split; [|auto]. intros ->.
      destruct Hi as (cs' & l' & _ & H1 & H2). apply Hself in H1. destruct H1 as [-> ->]. tauto. }
    destruct (next_available l) as [m|] eqn:Em; [|apply Hno; discriminate].
    destruct (Nat.eqb_spec t m) as [<-|Hne]; [|apply Hno; intros H; injection H as ->; lia].
    unfold next_available in Em. unfold hlink_async. destruct (hl_sto l) as [|m0 sto] eqn:Es; [discriminate|]. cbn in Em. injection Em as ->.
    rewrite Nat.ltb_irrefl. cbn [check_get]. rewrite Nat.eqb_refl. exists (k :: todo). split; [auto|]. intros i. cbn [In]. rewrite Hrest. split.
    + intros [<-|[_ H]]; [|auto]. exists cs, l. rewrite Nat.sub_diag. unfold next_available. rewrite Es. auto.
    + intros H. destruct (Nat.eq_dec k i); [auto|]. right. split; [lia|auto].
Qed.

Lemma used_at i cs l : nth_error ps i = Some (cs, l) -> exists h, nth_error hs i = Some h /\ used cs l h.
Proof.
  clear - Hused. revert i. generalize Hused. clear Hused. intros Hu. induction Hu as [|[cs0 l0] h ps hs Hp _ IH]; intros [|i] E; try discriminate; cbn in E.
  - injection E as -> ->. exists h. auto.
  - apply IH. exact E.
Qed.

Variable todo : list nat.
Hypothesis Htodo : forall i, In i todo <-> asked i.
Hypothesis Hdisj : forall i j ci li cj lj, i <> j -> In i todo -> In j todo ->
  nth_error ps i = Some (ci, li) -> nth_error ps j = Some (cj, lj) -> forall c, In c ci -> ~ In c cj.

Definition winv (w : waiting C) : Prop :=
  length (w_links w) = length ps /\ incl (w_todo w) todo /\
  (forall i cs l h, nth_error ps i = Some (cs, l) -> nth_error hs i = Some h ->
     exists l' first stride last, nth_error (w_links w) i = Some (cs, l') /\ (1 <= stride)%nat /\
       hrel cs first stride last (h_sent h) (length (h_got h) + (if is_done todo (w_todo w) i then 1 else 0)) l' /\
       (In i todo -> link_step_no first stride (length (h_got h)) = t /\ link_due first stride last (length (h_got h)) = true) /\
       (~ In i todo -> hl_sto l' = hl_sto l) /\
       (is_done todo (w_todo w) i = true ->
          exists src, nth_error (h_sent h) (length (h_got h)) = Some (t, src) /\ forall c, In c cs -> w_grid w c = src c)) /\
  (forall c, (forall i cs l, is_done todo (w_todo w) i = true -> nth_error ps i = Some (cs, l) -> ~ In c cs) -> w_grid w c = g c).

Lemma winv_start : winv (mkWaiting todo ps g).
Proof.
  assert (Hd : forall i, is_done todo todo i = false) by (intros i; unfold is_done; apply andb_negb_r).
  split; [auto|]. split; [apply incl_refl|]. cbn [w_todo w_links w_grid]. split.
  - intros i cs l h Ep Eh. destruct (used_at i cs l Ep) as (h' & Eh' & first & stride & last & es & Hst & E).
    rewrite Eh in Eh'. injection Eh' as <-. apply hrun_charge in E; auto. destruct E as [R _].
    exists l, first, stride, last. rewrite Hd, Nat.add_0_r. split; [auto|]. split; [auto|]. split; [auto|]. split; [|split; [auto|discriminate]].
    intros Hi. apply Htodo in Hi. destruct Hi as (cs' & l' & E' & Ha). rewrite Ep in E'. injection E' as <- <-.
    unfold next_available in Ha. rewrite (hr_sto _ _ _ _ _ _ _ R) in Ha. destruct (link_due first stride last (length (h_got h))); [|discriminate].
    cbn in Ha. injection Ha as Ha. auto.
  - auto.
Qed.

Lemma link_at w i cs l h : winv w -> nth_error ps i = Some (cs, l) -> nth_error hs i = Some h -> nth_error (w_links w) i <> None.
Proof. intros (_ & _ & HL & _) Ep Eh. destruct (HL i cs l h Ep Eh) as (l' & _ & _ & _ & E & _). congruence. Qed.

Lemma links_from w i p : winv w -> nth_error (w_links w) i = Some p -> exists l h, nth_error ps i = Some (fst p, l) /\ nth_error hs i = Some h.
Proof.
  intros (HL & _ & HI & _) E. assert (Hi : (i < length ps)%nat) by (rewrite <- HL; apply nth_error_Some; congruence).
  destruct (nth_error ps i) as [[cs l]|] eqn:Ep; [|apply nth_error_None in Ep; lia].
  destruct (used_at i cs l Ep) as (h & Eh & _). destruct (HI i cs l h Ep Eh) as (l' & _ & _ & _ & E' & _). rewrite E in E'. injection E' as ->.
  exists l, h. auto.
Qed.

Lemma done_remove (w : waiting C) i j : In i (w_todo w) -> incl (w_todo w) todo ->
  is_done todo (filter (fun k => negb (Nat.eqb i k)) (w_todo w)) j = if Nat.eqb i j then true else is_done todo (w_todo w) j.
Proof.
  intros Hi Hin. unfold is_done. destruct (Nat.eqb_spec i j) as [->|Hne].
  - rewrite (proj2 (existsb_In j todo)) by auto. cbn [andb]. apply negb_true_iff. destruct (existsb _ (filter _ _)) eqn:E; [|auto].
    apply existsb_In in E. apply filter_In in E. now rewrite Nat.eqb_refl in E.
  - f_equal. f_equal. apply eq_true_iff_eq. rewrite !existsb_In, filter_In. split; [tauto|]. intros H. split; [auto|].
    destruct (Nat.eqb_spec i j); [lia|auto].
Qed.

Definition parcels (l : list (list coord * hlink C)) : nat := list_sum (map (fun p => length (hl_net (snd p))) l).

Lemma parcels_set l : forall i p p', nth_error l i = Some p ->
  (parcels (set_nth l i p') + length (hl_net (snd p)) = parcels l + length (hl_net (snd p')))%nat.
Proof.
  unfold parcels. induction l as [|q l IH]; intros [|i] p p' E; try discriminate; cbn in E |- *.
  - injection E as ->. unfold list_sum. lia.
  - specialize (IH i p p' E). fold (list_sum (map (fun p0 : list coord * hlink C => length (hl_net (snd p0))) (set_nth l i p'))) in *.
    fold (list_sum (map (fun p0 : list coord * hlink C => length (hl_net (snd p0))) l)). lia.
Qed.

Lemma filter_shorter i (l : list nat) : In i l -> (length (filter (fun k => negb (Nat.eqb i k)) l) < length l)%nat.
Proof.
  assert (Hle : forall l : list nat, (length (filter (fun k => negb (Nat.eqb i k)) l) <= length l)%nat).
  { clear. induction l; cbn; [lia|]. destruct (negb (Nat.eqb i a)); cbn; lia. }
  induction l as [|x l IH]; [intros []|]. cbn [In filter length]. intros [->|H].
  - rewrite Nat.eqb_refl. cbn [negb]. specialize (Hle l). lia.
  - specialize (IH H). destruct (negb (Nat.eqb i x)); cbn [length]; lia.
Qed.

Lemma wstep_ok w e : winv w ->
  match wstep t w e with
  | LDone w' => winv w' /\ (S (parcels (w_links w') + length (w_todo w')) <= parcels (w_links w) + length (w_todo w))%nat
  | LWait => True
  | LThrow => False
  end.
Proof.
  intros W. pose proof W as (HL & Hin & HI & HG). destruct e as [i k|i]; cbn [wstep].
  - destruct (nth_error (w_links w) i) as [[cs l1]|] eqn:El; [|auto]. destruct (links_from w i _ W El) as (l & h & Ep & Eh). cbn [fst] in Ep.
    destruct (HI i cs l h Ep Eh) as (l' & first & stride & last & E & Hst & R & H1 & H2 & H3). rewrite El in E. injection E as <-.
    pose proof (arrive_rel cs first stride last Hst _ _ l1 k R) as HA. destruct (hlink_arrive l1 k) as [l2| |]; [|auto|auto].
    destruct HA as (R2 & Hsto & Hnet & _). assert (Hi : (i < length (w_links w))%nat) by (apply nth_error_Some; congruence).
    split.
    + split; [cbn; now rewrite set_nth_length|]. split; [exact Hin|]. cbn [w_todo w_links w_grid]. split; [|exact HG].
      intros j cs' l0 h' Ep' Eh'. rewrite nth_set_nth by auto. destruct (Nat.eqb_spec i j) as [<-|Hne]; [|now apply HI].
      rewrite Ep in Ep'. injection Ep' as <- <-. rewrite Eh in Eh'. injection Eh' as <-.
      exists l2, first, stride, last. split; [auto|]. split; [auto|]. split; [auto|]. split; [auto|]. split; [|auto]. rewrite Hsto. auto.
    + cbn [w_links w_todo]. pose proof (parcels_set (w_links w) i (cs, l1) (cs, l2) El) as Hp. cbn [snd] in Hp. lia.
  - destruct (existsb (Nat.eqb i) (w_todo w)) eqn:Et; [|auto]. apply existsb_In in Et.
    destruct (nth_error (w_links w) i) as [[cs l1]|] eqn:El; [|auto]. destruct (links_from w i _ W El) as (l & h & Ep & Eh). cbn [fst] in Ep.
    destruct (HI i cs l h Ep Eh) as (l' & first & stride & last & E & Hst & R & H1 & H2 & H3). rewrite El in E. injection E as <-.
    assert (Hnd : is_done todo (w_todo w) i = false).
    { unfold is_done. rewrite (proj2 (existsb_In i (w_todo w)) Et). apply andb_false_r. }
    rewrite Hnd, Nat.add_0_r in R. destruct (H1 (Hin _ Et)) as [Es Hd].
    pose proof (continue_spec cs first stride last Hst _ _ l1 (w_grid w) R Hd) as HC. rewrite Es in HC.
    destruct (hlink_continue cs l1 (w_grid w) t) as [[l2 g2]| |]; [|auto|auto].
    destruct HC as (src & Hsrc & R2 & Hnet & Hc1 & Hc2). assert (Hi : (i < length (w_links w))%nat) by (apply nth_error_Some; congruence).
    split.
    + split; [cbn; now rewrite set_nth_length|]. split; [intros j Hj; cbn in Hj; apply filter_In in Hj; apply Hin; tauto|]. cbn [w_todo w_links w_grid]. split.
      * intros j cs' l0 h' Ep' Eh'. rewrite (done_remove w i j Et Hin). rewrite nth_set_nth by auto. destruct (Nat.eqb_spec i j) as [<-|Hne].
        -- rewrite Ep in Ep'. injection Ep' as <- <-. rewrite Eh in Eh'. injection Eh' as <-.
           exists l2, first, stride, last. rewrite Nat.add_1_r. split; [auto|]. split; [auto|]. split; [auto|]. split; [auto|].
           split; [intros Hn; exfalso; apply Hn; now apply Hin|]. intros _. exists src. split; [auto|exact Hc1].
        -- destruct (HI j cs' l0 h' Ep' Eh') as (l3 & f3 & s3 & la3 & E3 & Hs3 & R3 & H13 & H23 & H33).
           exists l3, f3, s3, la3. split; [exact E3|]. split; [exact Hs3|]. split; [exact R3|]. split; [auto|]. split; [auto|]. intros Hdn. destruct (H33 Hdn) as (src' & Es' & Hg').
           exists src'. split; [auto|]. intros c Hc. rewrite Hc2; [auto|].
           assert (Hj : In j todo). { unfold is_done in Hdn. apply andb_true_iff in Hdn. apply existsb_In. tauto. }
           eapply (Hdisj j i cs' l0 cs l); auto.
      * intros c Hc. rewrite Hc2.
        -- apply HG. intros j cs' l0 Hdn Ep'. apply (Hc j cs' l0); [|auto]. rewrite (done_remove w i j Et Hin). now destruct (Nat.eqb i j).
        -- apply (Hc i cs l); [|auto]. rewrite (done_remove w i i Et Hin), Nat.eqb_refl. reflexivity.
    + cbn [w_links w_todo]. pose proof (parcels_set (w_links w) i (cs, l1) (cs, l2) El) as Hp. cbn [snd] in Hp. rewrite Hnet in Hp.
      pose proof (filter_shorter i (w_todo w) Et). lia.
Qed.

Lemma wrun_ok es : forall w, winv w ->
  match wrun t w es with
  | LDone w' => winv w' /\ (length es + (parcels (w_links w') + length (w_todo w')) <= parcels (w_links w) + length (w_todo w))%nat
  | LWait => True
  | LThrow => False
  end.
Proof.
  induction es as [|e es IH]; intros w W; cbn [wrun]; [split; [auto|cbn; lia]|].
  pose proof (wstep_ok w e W) as HS. destruct (wstep t w e) as [w1| |]; auto. destruct HS as [W1 Hm]. specialize (IH w1 W1).
  destruct (wrun t w1 es) as [w2| |]; auto. destruct IH as [W2 Hm2]. split; [auto|]. cbn [length]. lia.
Qed.

Lemma wprogress w : winv w -> (forall i cs l h, In i todo -> nth_error ps i = Some (cs, l) -> nth_error hs i = Some h -> (length (h_got h) < length (h_sent h))%nat) ->
  w_todo w <> [] -> exists e w', wstep t w e = LDone w'.
Proof.
  intros W Hs Hne. pose proof W as (HL & Hin & HI & HG). destruct (w_todo w) as [|i left] eqn:Et; [congruence|]. clear Hne.
  assert (Hi : In i todo) by (apply Hin; now left). pose proof Hi as Ha. apply Htodo in Ha. destruct Ha as (cs & l & Ep & _).
  destruct (used_at i cs l Ep) as (h & Eh & _). destruct (HI i cs l h Ep Eh) as (l' & first & stride & last & El & Hst & R & H1 & H2 & H3).
  destruct (hl_net l') as [|m net] eqn:En.
  - exists (WRun i). cbn [wstep]. rewrite Et. cbn [existsb]. rewrite Nat.eqb_refl. cbn [orb]. rewrite El.
    assert (Hnd : is_done todo (i :: left) i = false).
    { unfold is_done. cbn [existsb]. rewrite Nat.eqb_refl. apply andb_false_r. }
    rewrite Hnd, Nat.add_0_r in R. destruct (H1 Hi) as [Es Hd].
    pose proof (continue_spec cs first stride last Hst _ _ l' (w_grid w) R Hd) as HC. rewrite Es in HC.
    destruct (hlink_continue cs l' (w_grid w) t) as [[l2 g2]| |]; [eauto| |tauto].
    specialize (Hs i cs l h Hi Ep Eh). destruct HC as [HC|(x & Hx & _)]; [lia|]. rewrite En in Hx. destruct Hx.
  - exists (WArrive i 0). cbn [wstep]. rewrite El. pose proof (arrive_rel cs first stride last Hst _ _ l' 0 R) as HA.
    destruct (hlink_arrive l' 0) as [l2| |]; [eauto| |tauto]. rewrite En in HA. cbn in HA. lia.
Qed.

End Notify.

(** C200: asking all providers for their halos of a step at once. Whatever the
    order in which parcels arrive and continuations run, no exception occurs;
    after the last continuation the grid holds what each of the senders had
    offered for that step in the region of its link and is unchanged elsewhere,
    and no provider is left which would have to be asked. If the senders have
    offered the step, this is reached after finitely many events. *)
Theorem C200_notify C (ps : list (list coord * hlink C)) (hs : list (lhist C)) (t : nat) (g : grid C) :
  Forall2 (fun p h => used (fst p) (snd p) h) ps hs ->
  (forall i j ci li cj lj, i <> j -> nth_error ps i = Some (ci, li) -> nth_error ps j = Some (cj, lj) ->
     next_available li = Some t -> next_available lj = Some t -> forall c, In c ci -> ~ In c cj) ->
  exists todo, notify_start 0 ps t = Some todo /\ forall es,
    wrun t (mkWaiting todo ps g) es <> LThrow /\
    forall w, wrun t (mkWaiting todo ps g) es = LDone w ->
      (w_todo w = [] ->
         (forall i cs l h, nth_error ps i = Some (cs, l) -> nth_error hs i = Some h -> next_available l = Some t ->
            exists src, nth_error (h_sent h) (length (h_got h)) = Some (t, src) /\ forall c, In c cs -> w_grid w c = src c) /\
         (forall c, (forall i cs l, nth_error ps i = Some (cs, l) -> next_available l = Some t -> ~ In c cs) -> w_grid w c = g c) /\
         (forall i cs l, nth_error (w_links w) i = Some (cs, l) -> next_available l <> Some t)) /\
      ((forall i cs l h, nth_error ps i = Some (cs, l) -> nth_error hs i = Some h -> next_available l = Some t ->
          (length (h_got h) < length (h_sent h))%nat) ->
       w_todo w <> [] -> exists e w', wstep t w e = LDone w') /\
      (length es <= list_sum (map (fun p => length (hl_net (snd p))) ps) + length todo)%nat.
Proof.
  intros Hu Hd. destruct (start_spec t ps) with (k := O) as (todo & E & HT).
  { intros p Hp. apply In_nth_error in Hp. destruct Hp as [i Hi]. destruct p as [cs l]. destruct (used_at ps hs Hu i cs l Hi) as (h & _ & H). eauto. }
  assert (HT' : forall i, In i todo <-> asked ps t i).
  { intros i. rewrite HT. unfold asked. split.
    - intros (cs & l & _ & H1 & H2). rewrite Nat.sub_0_r in H1. eauto.
    - intros (cs & l & H1 & H2). exists cs, l. rewrite Nat.sub_0_r. split; [lia|auto]. }
  clear HT. exists todo. split; [auto|]. intros es.
  assert (Hd' : forall i j ci li cj lj, i <> j -> In i todo -> In j todo ->
    nth_error ps i = Some (ci, li) -> nth_error ps j = Some (cj, lj) -> forall c, In c ci -> ~ In c cj).
  { intros i j ci li cj lj Hne Hi Hj Ei Ej. apply HT' in Hi. apply HT' in Hj. destruct Hi as (? & ? & Hi1 & Hi2), Hj as (? & ? & Hj1 & Hj2).
    rewrite Ei in Hi1. rewrite Ej in Hj1. injection Hi1 as <- <-. injection Hj1 as <- <-. eapply Hd; eauto. }
  pose proof (wrun_ok ps hs t g Hu todo HT' Hd' es _ (winv_start ps hs t g Hu todo HT')) as HR.
  destruct (wrun t (mkWaiting todo ps g) es) as [w'| |]; [|split; discriminate|tauto]. destruct HR as [W Hm]. split; [discriminate|].
  intros w Ew. injection Ew as ->. pose proof W as (HL & Hin & HI & HG). split; [|split].
  - intros Hnil. assert (Hdn : forall i, In i todo -> is_done todo (w_todo w) i = true).
    { intros i Hi. unfold is_done. rewrite Hnil. cbn. rewrite andb_true_r. now apply existsb_In. }
    split; [|split].
    + intros i cs l h Ep Eh Ha. destruct (HI i cs l h Ep Eh) as (_ & _ & _ & _ & _ & _ & _ & _ & _ & H). apply H. apply Hdn. apply HT'. exists cs, l. auto.
    + intros c Hc. apply HG. intros i cs l Hi Ep. unfold is_done in Hi. apply andb_true_iff in Hi. destruct Hi as [Hi _]. apply existsb_In in Hi.
      apply HT' in Hi. destruct Hi as (cs' & l' & Ep' & Ha). rewrite Ep in Ep'. injection Ep' as <- <-. eapply Hc; eauto.
    + intros i cs l1 El Ha. destruct (links_from ps hs t g Hu todo HT' Hd' w i _ W El) as (l & h & Ep & Eh). cbn [fst] in Ep.
      destruct (HI i cs l h Ep Eh) as (l' & first & stride & last & E' & Hst & R & H1 & H2 & _). rewrite El in E'. injection E' as <-.
      destruct (in_dec Nat.eq_dec i todo) as [Hi|Hi].
      * rewrite (Hdn i Hi), Nat.add_1_r in R. destruct (H1 Hi) as [Hs _]. unfold next_available in Ha. rewrite (hr_sto _ _ _ _ _ _ _ R) in Ha.
        destruct (link_due first stride last (S (length (h_got h)))); [|discriminate]. cbn in Ha. injection Ha as Ha. unfold link_step_no in *. nia.
      * apply Hi. apply HT'. exists cs, l. split; [auto|]. unfold next_available in *. now rewrite <- (H2 Hi).
  - intros Hs. apply (wprogress ps hs t g Hu todo HT' Hd' w W). intros i cs l h Hi Ep Eh. apply HT' in Hi. destruct Hi as (cs' & l' & Ep' & Ha).
    rewrite Ep in Ep'. injection Ep' as <- <-. eapply Hs; eauto.
  - cbn [w_links w_todo] in Hm. unfold parcels in Hm. lia.
Qed.
Print Assumptions C200_notify.

(** ** [allGather] *)

Definition labelled {V} (data : list V) (k : nat) : list (nat * V) := combine (seq k (length data - k)) (skipn k data).

Lemma labelled_cons {V} (data : list V) k v : nth_error data k = Some v -> labelled data k = (k, v) :: labelled data (S k).
Proof.
  intros H. assert (k < length data)%nat by (apply nth_error_Some; congruence). unfold labelled. rewrite (skipn_cons k data v H).
  replace (length data - k)%nat with (S (length data - S k)) by lia. reflexivity.
Qed.

Lemma combine_fst {A B} : forall (l : list A) (r : list B), length l = length r -> map fst (combine l r) = l.
Proof. induction l as [|a l IH]; intros [|b r] H; cbn in *; try discriminate; auto. f_equal. apply IH. lia. Qed.

Lemma labelled_keys {V} (data : list V) k : map fst (labelled data k) = seq k (length data - k).
Proof. apply combine_fst. now rewrite seq_length, skipn_length. Qed.

Definition ginv {V} (data : list V) (s : gather V) : Prop :=
  let k := length (ga_vec s) in
  (k <= length data)%nat /\ ga_vec s = firstn k data /\ Permutation (ga_net s ++ ga_in s) (labelled data k).

Lemma ginv_nodup {V} (data : list V) s : ginv data s -> NoDup (map fst (ga_net s ++ ga_in s)).
Proof. intros (_ & _ & H). rewrite H, labelled_keys. apply seq_NoDup. Qed.

Lemma firstn_snoc {A} k (l : list A) x : nth_error l k = Some x -> firstn (S k) l = firstn k l ++ [x].
Proof. revert k. induction l as [|y l IH]; intros [|k] H; try discriminate; cbn in H; [now injection H as ->|]. cbn [firstn app]. f_equal. now apply IH. Qed.

Lemma gfetch_spec {V} (data : list V) s : ginv data s -> (length (ga_vec s) < length data)%nat ->
  match gstep (length data) s GFetch with
  | LDone s' => ginv data s' /\ ga_net s' = ga_net s /\ length (ga_vec s') = S (length (ga_vec s))
  | LWait => ga_net s <> []
  | LThrow => False
  end.
Proof.
  intros G Hlt. pose proof (ginv_nodup data s G) as Hn. destruct G as (Hk & Hv & Hp). cbn [gstep]. rewrite (proj2 (Nat.ltb_lt _ _) Hlt).
  rewrite map_app in Hn.
  assert (Hn' : NoDup (map fst (ga_in s))).
  { revert Hn. generalize (map fst (ga_net s)) (map fst (ga_in s)). clear. induction l as [|x l IH]; cbn; auto. intros l0 H. inversion H; auto. }
  destruct (nth_error data (length (ga_vec s))) as [d|] eqn:Ed; [|apply nth_error_None in Ed; lia].
  rewrite (labelled_cons _ _ _ Ed) in Hp.
  pose proof (take_spec (ga_in s) (length (ga_vec s)) Hn') as Ht. destruct (inbox_take (ga_in s) (length (ga_vec s))) as [[v b]|].
  - assert (v = d).
    { assert (Hi : In (length (ga_vec s), v) (ga_net s ++ ga_in s)) by (rewrite in_app_iff; right; rewrite Ht; now left).
      rewrite Hp in Hi. destruct Hi as [Hi|Hi]; [congruence|]. exfalso. apply (in_map fst) in Hi. cbn [fst] in Hi.
      rewrite labelled_keys in Hi. apply in_seq in Hi. lia. }
    subst v. split; [|split; [auto|cbn; rewrite app_length; cbn; lia]]. unfold ginv. cbn [ga_vec ga_net ga_in]. rewrite app_length. cbn [length].
    rewrite Nat.add_1_r. split; [lia|]. split; [rewrite (firstn_snoc _ _ _ Ed), <- Hv; auto|].
    apply (Permutation_cons_inv (a := (length (ga_vec s), d))). rewrite <- Hp, Permutation_middle, <- Ht. reflexivity.
  - intros Hnet. apply Ht. rewrite Hnet in Hp. cbn [app] in Hp. rewrite Hp. now left.
Qed.

Lemma garrive_spec {V} (data : list V) s k : ginv data s ->
  match gstep (length data) s (GArrive k) with
  | LDone s' => ginv data s' /\ length (ga_net s) = S (length (ga_net s')) /\ ga_vec s' = ga_vec s
  | LWait => (length (ga_net s) <= k)%nat
  | LThrow => False
  end.
Proof.
  intros G. cbn [gstep]. destruct (take_nth k (ga_net s)) as [[m net]|] eqn:E.
  - destruct (arrive_spec _ _ _ _ _ (ginv_nodup _ _ G) E) as [E1 E2]. rewrite E1. destruct G as (Hk & Hv & Hp).
    split; [|split; [|auto]].
    + split; [auto|]. split; [auto|]. cbn [ga_net ga_in ga_vec]. now rewrite <- E2.
    + apply take_nth_perm, Permutation_length in E. exact E.
  - destruct (Nat.lt_ge_cases k (length (ga_net s))) as [Hl|Hl]; [|auto]. destruct (take_nth_some k _ Hl) as (x & r & E1 & _). congruence.
Qed.

Lemma gstart_inv {V} (data : list V) : ginv data (gather_start data).
Proof. split; [cbn; lia|]. split; [reflexivity|]. cbn. rewrite app_nil_r. unfold labelled. rewrite Nat.sub_0_r. reflexivity. Qed.

Definition gmeasure {V} (data : list V) (s : gather V) : nat := (length (ga_net s) + (length data - length (ga_vec s)))%nat.

Lemma grun_ok {V} (data : list V) es : forall s, ginv data s ->
  match grun (length data) s es with
  | LDone s' => ginv data s' /\ (length es + gmeasure data s' <= gmeasure data s)%nat
  | LWait => True
  | LThrow => False
  end.
Proof.
  induction es as [|e es IH]; intros s G; cbn [grun]; [split; [auto|cbn; lia]|].
  assert (HS : match gstep (length data) s e with
               | LDone s' => ginv data s' /\ (S (gmeasure data s') <= gmeasure data s)%nat
               | LWait => True
               | LThrow => False
               end).
  { destruct e as [k|].
    - pose proof (garrive_spec data s k G) as H. destruct (gstep (length data) s (GArrive k)); auto. destruct H as (H1 & H2 & H3).
      split; [auto|]. unfold gmeasure. rewrite H3. lia.
    - destruct (Nat.lt_ge_cases (length (ga_vec s)) (length data)) as [Hl|Hl].
      + pose proof (gfetch_spec data s G Hl) as H. destruct (gstep (length data) s GFetch); auto. destruct H as (H1 & H2 & H3).
        split; [auto|]. unfold gmeasure. rewrite H2, H3. lia.
      + cbn [gstep]. destruct (Nat.ltb_spec (length (ga_vec s)) (length data)); [lia|auto]. }
  destruct (gstep (length data) s e) as [s1| |]; auto. destruct HS as [G1 Hm]. specialize (IH s1 G1).
  destruct (grun (length data) s1 es) as [s2| |]; auto. destruct IH as [G2 Hm2]. split; [auto|]. cbn [length]. lia.
Qed.

(** C201: [allGather] returns the data of all ranks in the order of the ranks,
    whatever the order in which they arrive: no exception occurs, no run takes
    more than two events per rank, and a run which can't go on has them all. *)
Theorem C201_all_gather V (data : list V) es :
  grun (length data) (gather_start data) es <> LThrow /\
  forall s, grun (length data) (gather_start data) es = LDone s ->
    (length es <= 2 * length data)%nat /\
    ga_vec s = firstn (length (ga_vec s)) data /\
    ((forall e, gstep (length data) s e = LWait) -> ga_vec s = data /\ ga_net s = [] /\ ga_in s = []).
Proof.
  pose proof (grun_ok data es _ (gstart_inv data)) as H. destruct (grun (length data) (gather_start data) es) as [s'| |]; [|split; discriminate|tauto].
  destruct H as [G Hm]. split; [discriminate|]. intros s Es. injection Es as ->. pose proof G as (Hk & Hv & Hp). split; [|split; [auto|]].
  - unfold gmeasure in Hm. cbn [gather_start ga_net ga_vec] in Hm. rewrite combine_length, seq_length in Hm. cbn in Hm. lia.
  - intros Hstuck. assert (Hnet : ga_net s = []).
    { pose proof (garrive_spec data s 0 G) as H. rewrite (Hstuck (GArrive 0)) in H. destruct (ga_net s); [auto|]. cbn in H. lia. }
    assert (Hfull : length (ga_vec s) = length data).
    { destruct (Nat.eq_dec (length (ga_vec s)) (length data)); [auto|]. pose proof (gfetch_spec data s G ltac:(lia)) as H.
      rewrite (Hstuck GFetch) in H. tauto. }
    split; [rewrite Hv, Hfull; apply firstn_all|]. split; [auto|].
    rewrite Hnet, Hfull in Hp. unfold labelled in Hp. rewrite Nat.sub_diag in Hp. cbn in Hp. now apply Permutation_sym, Permutation_nil in Hp.
Qed.
Print Assumptions C201_all_gather.

(** ** Examples *)

(** Steps 4, 6 and 8 of a link for two cells; the parcels arrive in the order
    6, 8, 4. *)
Definition ex_grid (v : Z) : grid Z := fun c => nth 1 c 0 + v.
Definition ex_cells : list coord := [[0; 3]; [0; 4]].
Definition ex_events : list (hev Z) :=
  [HPut (ex_grid 10) 3; HPut (ex_grid 20) 4; HPut (ex_grid 30) 5; HPut (ex_grid 40) 6; HPut (ex_grid 50) 8;
   HArrive 1; HArrive 1; HArrive 0; HGet (ex_grid 0) 4; HGet (ex_grid 0) 5; HGet (ex_grid 0) 6; HGet (ex_grid 0) 8].

Definition ex_seen (r : lres (hlink Z * lhist Z)) : option (list (nat * list Z)) :=
  match r with
  | LDone (l, h) => Some (map (fun x => (fst x, map (snd (snd x)) [[0; 2]; [0; 3]; [0; 4]])) (h_got h))
  | _ => None
  end.

Example C199_example :
  ex_seen (hrun ex_cells (hlink_charge 4 (Some 10%nat) 2) (mkHist [] []) ex_events) =
    Some [(4%nat, [2; 23; 24]); (6%nat, [2; 43; 44]); (8%nat, [2; 53; 54])] /\
  hrun ex_cells (hlink_charge 4 (Some 10%nat) 2) (mkHist [] []) (ex_events ++ [HGet (ex_grid 0) 20]) <> LThrow.
Proof. split; vm_compute; [reflexivity|discriminate]. Qed.

(** A receiver asks before the parcel has arrived, and one for a step which was
    left out. *)
Example C199_example_wait :
  hrun ex_cells (hlink_charge 4 (Some 10%nat) 2) (mkHist [] []) [HPut (ex_grid 1) 4; HGet (ex_grid 0) 4] = LWait /\
  hrun ex_cells (hlink_charge 4 (Some 10%nat) 2) (mkHist [] []) [HPut (ex_grid 1) 4; HPut (ex_grid 1) 8] = LThrow.
Proof. split; vm_compute; reflexivity. Qed.

(** Three providers: two of them are due at step 4, the third one at step 5. *)
Definition ex_link (cs : list coord) (first : nat) (v : Z) : option (list coord * hlink Z) :=
  match hlink_put cs (hlink_charge first None 2) (ex_grid v) first with LDone l => Some (cs, l) | _ => None end.
Definition ex_links : list (list coord * hlink Z) :=
  flat_map (fun o => match o with Some x => [x] | None => [] end)
    [ex_link ex_cells 4 100; ex_link [[0; 5]] 5 200; ex_link [[0; 6]; [0; 7]] 4 300].

Definition ex_after (r : lres (waiting Z)) : option (list nat * list Z) :=
  match r with LDone w => Some (w_todo w, map (w_grid w) [[0; 3]; [0; 4]; [0; 5]; [0; 6]; [0; 7]; [0; 8]]) | _ => None end.

Example C200_example :
  notify_start 0 ex_links 4 = Some [0%nat; 2%nat] /\
  ex_after (wrun 4 (mkWaiting [0%nat; 2%nat] ex_links (ex_grid 0)) [WArrive 2 0; WRun 2; WArrive 1 0; WArrive 0 0; WRun 0]) =
    Some ([], [103; 104; 5; 306; 307; 8]) /\
  wrun 4 (mkWaiting [0%nat; 2%nat] ex_links (ex_grid 0)) [WArrive 2 0; WRun 0] = LWait.
Proof. repeat split; vm_compute; reflexivity. Qed.

Lemma used_put {C} cs first last stride (g : grid C) l : (1 <= stride)%nat -> hlink_put cs (hlink_charge first last stride) g first = LDone l ->
  used cs l (mkHist [(first, g)] []).
Proof.
  intros Hst E. exists first, stride, last, [HPut g first]. split; [auto|]. cbn [hrun hstep]. rewrite E.
  cbn [hlink_charge hl_req check_put h_sent h_got]. rewrite Nat.ltb_irrefl. reflexivity.
Qed.

Example C200_example_used :
  Forall2 (fun p h => used (fst p) (snd p) h) ex_links
    [mkHist [(4%nat, ex_grid 100)] []; mkHist [(5%nat, ex_grid 200)] []; mkHist [(4%nat, ex_grid 300)] []].
Proof. repeat constructor; cbn [fst snd]; apply (used_put _ _ None 2); auto. Qed.

Example C201_example :
  grun 3 (gather_start [10; 20; 30]) [GArrive 2; GArrive 0; GFetch; GArrive 0; GFetch; GFetch] = LDone (mkGather [] [] [10; 20; 30]) /\
  grun 3 (gather_start [10; 20; 30]) [GArrive 2; GFetch] = LWait.
Proof. split; vm_compute; reflexivity. Qed.
