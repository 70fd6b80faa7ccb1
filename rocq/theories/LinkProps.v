(** Property C27: both ends of a patch link agree. *)
From Verif Require Import Base ListFacts PatchModel PatchSpec PatchFacts LinkSpec LinkFacts.

(** The invariant of a run. *)
Definition hist_ok {C} (cs : list coord) first stride last (l : link C) (h : lhist C) : Prop :=
  exists H a b, link_rel first stride last H a b l /\
    length (h_sent h) = a /\ length (h_got h) = b /\
    (forall k x, nth_error (h_sent h) k = Some x ->
       fst x = link_step_no first stride k /\ link_due first stride last k = true /\ H k = save_region (snd x) cs) /\
    (forall k x, nth_error (h_got h) k = Some x ->
       fst x = link_step_no first stride k /\ link_due first stride last k = true /\
       exists s, nth_error (h_sent h) k = Some s /\
         (forall c, In c cs -> snd (snd x) c = snd s c) /\ (forall c, ~ In c cs -> snd (snd x) c = fst (snd x) c)).

Lemma nth_app_last {A} (l : list A) x k y : nth_error (l ++ [x]) k = Some y ->
  nth_error l k = Some y \/ (k = length l /\ y = x).
Proof.
  intros H. destruct (Nat.lt_ge_cases k (length l)) as [Hl|Hl]; [rewrite nth_error_app1 in H; auto|].
  rewrite nth_error_app2 in H by auto. right. destruct (k - length l)%nat as [|j] eqn:E; cbn in H; [|destruct j; discriminate].
  injection H as <-. split; [lia|auto].
Qed.

Lemma lstep_ok {C} cs first stride last (l l' : link C) h h' e : (1 <= stride)%nat ->
  hist_ok cs first stride last l h -> lstep cs l h e = Some (l', h') -> hist_ok cs first stride last l' h'.
Proof.
  intros Hst (H & a & b & R & La & Lb & Hs & Hg) E. pose proof (lr_le _ _ _ _ _ _ _ R) as Hle. destruct e as [eager g t| |g t]; cbn [lstep] in E.
  - destruct (Nat.lt_trichotomy t (link_step_no first stride a)) as [Ht|[Ht|Ht]].
    + rewrite (put_early cs first stride last H a b l g eager t R) in E by auto.
      rewrite (lr_req _ _ _ _ _ _ _ R) in E. destruct (link_due first stride last a); cbn [check_put] in E.
      * rewrite (proj2 (Nat.ltb_lt _ _) Ht) in E. injection E as <- <-. exists H, a, b. auto.
      * injection E as <- <-. exists H, a, b. auto.
    + destruct (link_due first stride last a) eqn:Hd.
      * set (H' := fun k => if Nat.eqb k a then save_region g cs else H k).
        assert (R' : link_rel first stride last H' a b l).
        { apply rel_ext with H; auto. intros k Hk. unfold H'. destruct (Nat.eqb_spec k a); [lia|auto]. }
        destruct (put_due cs first stride last Hst H' a b l g eager R' Hd) as [[E1 _]|(l1 & E1 & _ & R1 & _)].
        { unfold H'. now rewrite Nat.eqb_refl. }
        -- subst t. rewrite E1 in E. discriminate.
        -- subst t. rewrite E1 in E. rewrite (lr_req _ _ _ _ _ _ _ R), Hd in E. cbn [check_put] in E. rewrite Nat.ltb_irrefl in E.
           injection E as <- <-. exists H', (S a), b. split; [exact R1|]. cbn [h_sent h_got]. split; [rewrite app_length; cbn; lia|].
           split; [auto|]. split.
           ++ intros k x Hx. apply nth_app_last in Hx. unfold H'. destruct Hx as [Hx|[-> ->]].
              ** assert (k < a)%nat by (rewrite <- La; apply nth_error_Some; congruence). destruct (Nat.eqb_spec k a); [lia|]. now apply Hs.
              ** rewrite La, Nat.eqb_refl. auto.
           ++ intros k x Hx. destruct (Hg k x Hx) as (H1 & H2 & s & H3 & H4). split; [auto|]. split; [auto|]. exists s. split; [|auto].
              rewrite nth_error_app1; [auto|]. apply nth_error_Some. congruence.
      * rewrite (put_early cs first stride last H a b l g eager t R) in E by auto.
        rewrite (lr_req _ _ _ _ _ _ _ R), Hd in E. injection E as <- <-. exists H, a, b. auto.
    + unfold link_put in E. rewrite (lr_req _ _ _ _ _ _ _ R) in E. destruct (link_due first stride last a); cbn [check_put] in E.
      * destruct (Nat.ltb_spec t (link_step_no first stride a)); [lia|].
        destruct (Nat.ltb_spec (link_step_no first stride a) t); [|lia]. discriminate.
      * injection E as <- <-. exists H, a, b. auto.
  - destruct (link_deliver l) as [l1|] eqn:E1; [|discriminate]. injection E as <- <-.
    exists H, a, b. split; [|auto]. eapply deliver_rel; eauto.
  - destruct (Nat.lt_trichotomy t (link_step_no first stride b)) as [Ht|[Ht|Ht]].
    + rewrite (get_early cs first stride last H a b l g t R) in E by auto. rewrite (lr_sto _ _ _ _ _ _ _ R) in E.
      destruct (link_due first stride last b); cbn [check_get] in E.
      * destruct (Nat.eqb_spec (link_step_no first stride b) t); [lia|]. injection E as <- <-. exists H, a, b. auto.
      * injection E as <- <-. exists H, a, b. auto.
    + destruct (link_due first stride last b) eqn:Hd.
      * destruct (Nat.lt_ge_cases b a) as [Hlt|Hge].
        -- destruct (nth_error (h_sent h) b) as [s|] eqn:Es; [|apply nth_error_None in Es; lia].
           destruct (Hs b s Es) as (_ & _ & HH).
           destruct (get_due cs first stride last Hst H a b l g (snd s) R Hd HH) as [[E1 _]|(l1 & g1 & E1 & _ & R1 & H1 & H2)].
           ++ subst t. rewrite E1 in E. discriminate.
           ++ subst t. rewrite E1 in E. rewrite (lr_sto _ _ _ _ _ _ _ R), Hd in E. cbn [check_get] in E. rewrite Nat.eqb_refl in E.
              injection E as <- <-. exists H, a, (S b). split; [exact R1|]. cbn [h_sent h_got]. split; [auto|].
              split; [rewrite app_length; cbn; lia|]. split; [auto|].
              intros k x Hx. apply nth_app_last in Hx. destruct Hx as [Hx|[-> ->]]; [now apply Hg|].
              rewrite Lb. cbn [fst snd]. split; [auto|]. split; [auto|]. exists s. auto.
        -- exfalso. subst t. unfold link_get in E. rewrite (lr_sto _ _ _ _ _ _ _ R), Hd in E. rewrite Nat.ltb_irrefl in E.
           cbn [check_get] in E. rewrite Nat.eqb_refl, (lr_posted _ _ _ _ _ _ _ R), Hd in E. cbn [negb orb] in E.
           pose proof (lr_pend _ _ _ _ _ _ _ R) as Hp. replace (a - b)%nat with O in Hp by lia. unfold pend in Hp.
           destruct (lk_arrived l); discriminate.
      * rewrite (get_early cs first stride last H a b l g t R) in E by auto.
        rewrite (lr_sto _ _ _ _ _ _ _ R), Hd in E. injection E as <- <-. exists H, a, b. auto.
    + unfold link_get in E. rewrite (lr_sto _ _ _ _ _ _ _ R) in E. destruct (link_due first stride last b) eqn:Hd; cbn [check_get] in E.
      * destruct (Nat.ltb_spec t (link_step_no first stride b)); [lia|].
        destruct (Nat.eqb_spec (link_step_no first stride b) t); [lia|]. discriminate.
      * injection E as <- <-. exists H, a, b. auto.
Qed.

Lemma lrun_ok {C} cs first stride last es : (1 <= stride)%nat -> forall (l l' : link C) h h',
  hist_ok cs first stride last l h -> lrun cs l h es = Some (l', h') -> hist_ok cs first stride last l' h'.
Proof.
  intros Hst. induction es as [|e es IH]; intros l l' h h' Hok E; cbn [lrun] in E; [injection E as <- <-; auto|].
  destruct (lstep cs l h e) as [(l1, h1)|] eqn:E1; [|discriminate]. eapply IH; [|exact E]. eapply lstep_ok; eauto.
Qed.

(** C27 *)
Theorem C27_patch_link C (cs : list coord) (dflt : C) first stride last es l h :
  (1 <= stride)%nat ->
  lrun cs (link_charge dflt cs first last stride) (mkHist [] []) es = Some (l, h) ->
  (** the [k]-th message is for the [k]-th step, at both ends *)
  (forall k t g, nth_error (h_sent h) k = Some (t, g) ->
     t = link_step_no first stride k /\ link_due first stride last k = true) /\
  (forall k t g g', nth_error (h_got h) k = Some (t, (g, g')) ->
     t = link_step_no first stride k /\ link_due first stride last k = true) /\
  (** and carries the sender's region *)
  (forall k t g g' t' src, nth_error (h_got h) k = Some (t, (g, g')) -> nth_error (h_sent h) k = Some (t', src) ->
     (forall c, In c cs -> g' c = src c) /\ (forall c, ~ In c cs -> g' c = g c)) /\
  (length (h_got h) <= length (h_sent h))%nat /\
  (** once as many have been received as sent, none is left over *)
  (length (h_got h) = length (h_sent h) -> lk_flight l = [] /\ lk_arrived l = false) /\
  (** after the last one nothing is expected any more, at both ends *)
  (link_due first stride last (length (h_got h)) = false -> length (h_got h) = length (h_sent h) /\ lk_req l = [] /\ lk_posted l = false).
Proof.
  intros Hst E. apply (lrun_ok cs first stride last es Hst) in E.
  2:{ exists (fun _ => []), O, O. split; [apply charge_rel; exact Hst|]. split; [auto|]. split; [auto|]. split; intros [|k] x Hx; discriminate. }
  destruct E as (H & a & b & R & La & Lb & Hs & Hg). pose proof (lr_le _ _ _ _ _ _ _ R) as Hle. rewrite La, Lb.
  split; [intros k t g Hk; destruct (Hs k _ Hk) as (H1 & H2 & _); auto|].
  split; [intros k t g g' Hk; destruct (Hg k _ Hk) as (H1 & H2 & _); auto|].
  split; [|split; [auto|split]].
  - intros k t g g' t' src Hk Hk'. destruct (Hg k _ Hk) as (_ & _ & s & Hs' & H1 & H2). rewrite Hk' in Hs'. injection Hs' as <-. auto.
  - intros <-. pose proof (lr_pend _ _ _ _ _ _ _ R) as Hp. rewrite Nat.sub_diag in Hp. unfold pend in Hp.
    destruct (lk_arrived l); [discriminate|]. destruct (lk_flight l); [auto|discriminate].
  - intros Hd. assert (Hab : a = b).
    { destruct (Nat.eq_dec a b); auto. exfalso. assert (Hlt : (b < a)%nat) by lia.
      destruct (nth_error (h_sent h) b) as [x|] eqn:Ex; [|apply nth_error_None in Ex; lia]. destruct (Hs b x Ex) as (_ & H1 & _). congruence. }
    subst a. split; [auto|]. rewrite (lr_req _ _ _ _ _ _ _ R), (lr_posted _ _ _ _ _ _ _ R), Hab, Hd. auto.
Qed.
Print Assumptions C27_patch_link.

(** Nothing throws if steps are offered without gaps and asked for in the same
    way: the next step is waited for, done, or not of interest. *)
Theorem C27_no_exception C (cs : list coord) (dflt : C) first stride last es l h :
  (1 <= stride)%nat ->
  lrun cs (link_charge dflt cs first last stride) (mkHist [] []) es = Some (l, h) ->
  forall t g eager,
    ((t <= link_step_no first stride (length (h_sent h)))%nat -> link_put cs eager l g t <> LThrow) /\
    ((t <= link_step_no first stride (length (h_got h)))%nat -> link_get cs l g t <> LThrow).
Proof.
  intros Hst E t g eager. apply (lrun_ok cs first stride last es Hst) in E.
  2:{ exists (fun _ => []), O, O. split; [apply charge_rel; exact Hst|]. split; [auto|]. split; [auto|]. split; intros [|k] x Hx; discriminate. }
  destruct E as (H & a & b & R & La & Lb & Hs & Hg). pose proof (lr_le _ _ _ _ _ _ _ R) as Hle. rewrite La, Lb. split; intros Ht.
  - unfold link_put. rewrite (lr_req _ _ _ _ _ _ _ R). destruct (link_due first stride last a); [|discriminate]. cbn [check_put].
    destruct (Nat.ltb_spec t (link_step_no first stride a)); [discriminate|].
    destruct (Nat.ltb_spec (link_step_no first stride a) t); [lia|]. destruct (link_sent l); discriminate.
  - destruct (Nat.eq_dec t (link_step_no first stride b)) as [->|Hne].
    + destruct (link_due first stride last b) eqn:Hd; [|rewrite (get_early cs first stride last H a b l) by auto; discriminate].
      destruct (Nat.lt_ge_cases b a) as [Hlt|Hge].
      * destruct (nth_error (h_sent h) b) as [s|] eqn:Es; [|apply nth_error_None in Es; lia]. destruct (Hs b s Es) as (_ & _ & HH).
        destruct (get_due cs first stride last Hst H a b l g (snd s) R Hd HH) as [[E1 _]|(l1 & g1 & E1 & _)]; rewrite E1; discriminate.
      * unfold link_get. rewrite (lr_sto _ _ _ _ _ _ _ R), Hd. rewrite Nat.ltb_irrefl. cbn [check_get].
        rewrite Nat.eqb_refl, (lr_posted _ _ _ _ _ _ _ R), Hd. cbn [negb orb].
        pose proof (lr_pend _ _ _ _ _ _ _ R) as Hp. replace (a - b)%nat with O in Hp by lia. unfold pend in Hp.
        destruct (lk_arrived l); discriminate.
    + rewrite (get_early cs first stride last H a b l) by (auto; left; lia). discriminate.
Qed.
Print Assumptions C27_no_exception.

(** Stride 3 from step 2 on, the last step is 9; the first two messages are on
    their way at the same time, the second one without having been copied. *)
Example C27_example :
  let G := fun (t : nat) (c : coord) => Z.of_nat t * 10 + hd 0 c in
  let z := fun _ : coord => 0 in
  exists l h, lrun [[1]; [2]] (link_charge 0 [[1]; [2]] 2 (Some 9%nat) 3) (mkHist [] [])
    ([EvPut true (G 1%nat) 1; EvPut true (G 2%nat) 2; EvPut true (G 4%nat) 4; EvPut false (G 5%nat) 5; EvDeliver; EvGet z 1; EvGet z 2;
      EvDeliver; EvPut true (G 8%nat) 8; EvGet z 5; EvDeliver; EvGet z 8; EvPut true (G 11%nat) 11; EvGet z 11])%nat = Some (l, h) /\
    map fst (h_sent h) = [2; 5; 8]%nat /\ map (fun x => (fst x, map (snd (snd x)) [[0]; [1]; [2]])) (h_got h) =
      [(2%nat, [0; 21; 22]); (5%nat, [0; 51; 52]); (8%nat, [0; 81; 82])].
Proof. cbn zeta. do 2 eexists. split; [vm_compute; reflexivity|]. split; vm_compute; reflexivity. Qed.
