(** Patch links deliver what was sent, in order. *)
From Verif Require Import Base ListFacts PatchModel PatchSpec PatchFacts LinkSpec.

Section Link.
Context {C : Type} (cs : list coord) (first stride : nat) (last : option nat) (Hstride : (1 <= stride)%nat).

Notation step k := (link_step_no first stride k).
Notation due k := (link_due first stride last k).

Definition pend (l : link C) : list (list C) :=
  (if lk_arrived l then [lk_rbuf l] else []) ++
  map (fun m => match m with Some b => b | None => lk_sbuf l end) (lk_flight l).

(** All but the last message in flight have been copied. *)
Definition copied (fl : list (option (list C))) : Prop :=
  exists fl1 fl2, fl = map Some fl1 ++ fl2 /\ (fl2 = [] \/ fl2 = [None]).

(** [a] messages have been sent, [b] received; [H k] is the content of the
    [k]-th message. *)
Record link_rel (H : nat -> list C) (a b : nat) (l : link C) : Prop := {
  lr_last : lk_last l = last;
  lr_stride : lk_stride l = stride;
  lr_req : lk_req l = if due a then [step a] else [];
  lr_sto : lk_sto l = if due b then [step b] else [];
  lr_posted : lk_posted l = due b;
  lr_pend : pend l = map H (seq b (a - b));
  lr_le : (b <= a)%nat;
  lr_copied : copied (lk_flight l);
  lr_arr : lk_arrived l = true -> due b = true
}.

Lemma due_next k : link_next (mkLink last stride [] [] [] [] [] true true : link C) (step k) = if due (S k) then Some (step (S k)) else None.
Proof.
  unfold link_next, link_due, link_step_no. cbn [lk_stride lk_last].
  replace (first + k * stride + stride)%nat with (first + S k * stride)%nat by lia. destruct last; cbn [Nat.eqb orb]; auto.
Qed.

Lemma due_next' (l : link C) k : lk_last l = last -> lk_stride l = stride ->
  link_next l (step k) = if due (S k) then Some (step (S k)) else None.
Proof. intros E1 E2. rewrite <- due_next. unfold link_next. cbn [lk_stride lk_last]. now rewrite E1, E2. Qed.

Lemma due_prev k : due (S k) = true -> due k = true.
Proof.
  unfold link_due, link_step_no. destruct k as [|k]; [reflexivity|]. cbn [Nat.eqb orb]. destruct last; auto. rewrite !Nat.ltb_lt. nia.
Qed.

Lemma next_steps k : tl (set_add_opt (if due (S k) then Some (step (S k)) else None) [step k]) = if due (S k) then [step (S k)] else [].
Proof.
  destruct (due (S k)); cbn [set_add_opt]; [|reflexivity]. cbn [set_add].
  unfold link_step_no. destruct (Nat.ltb_spec (first + S k * stride) (first + k * stride)); [nia|].
  destruct (Nat.eqb_spec (first + S k * stride) (first + k * stride)); [nia|]. reflexivity.
Qed.

Lemma copied_sent fl : copied fl -> forallb (fun m : option (list C) => match m with Some _ => true | None => false end) fl = true ->
  exists fl1, fl = map Some fl1.
Proof.
  intros (fl1 & fl2 & -> & [->| ->]) H.
  - exists fl1. now rewrite app_nil_r.
  - rewrite forallb_app in H. cbn in H. now rewrite andb_false_r in H.
Qed.

Lemma put_due H a b l g eager : link_rel H a b l -> due a = true -> H a = save_region g cs ->
  link_put cs eager l g (step a) = LWait /\ link_sent l = false \/
  exists l', link_put cs eager l g (step a) = LDone l' /\ link_sent l = true /\ link_rel H (S a) b l' /\ lk_flight l' <> [].
Proof.
  intros R Hd HH. unfold link_put. rewrite (lr_req _ _ _ _ R), Hd. cbn [check_put]. rewrite Nat.ltb_irrefl.
  destruct (link_sent l) eqn:Es; [right|left; auto]. cbn [hd].
  rewrite (due_next' l a (lr_last _ _ _ _ R) (lr_stride _ _ _ _ R)), next_steps.
  eexists. split; [reflexivity|]. split; [reflexivity|]. destruct (copied_sent _ (lr_copied _ _ _ _ R) Es) as (fl1 & Efl). split.
  2:{ cbn. destruct (lk_flight l); discriminate. }
  pose proof (lr_pend _ _ _ _ R) as Hp. pose proof (lr_le _ _ _ _ R) as Hle.
  split; cbn [lk_last lk_stride lk_req lk_sto lk_posted lk_flight lk_arrived]; try apply R; auto.
  - unfold pend in *. cbn [lk_arrived lk_rbuf lk_flight lk_sbuf].
    replace (S a - b)%nat with (S (a - b)) by lia. rewrite seq_S, (map_app H). cbn [map]. replace (b + (a - b))%nat with a by lia.
    rewrite <- Hp, (map_app _ (lk_flight l)), app_assoc. f_equal.
    + f_equal. rewrite Efl, !map_map. reflexivity.
    + rewrite HH. cbn [map]. now destruct eager.
  - rewrite Efl. destruct eager.
    + exists (fl1 ++ [save_region g cs]), []. rewrite map_app, app_nil_r. auto.
    + exists fl1, [None]. auto.
Qed.

(** Steps before the next one to be sent are ignored. *)
Lemma put_early H a b l g eager t : link_rel H a b l -> (t < step a)%nat \/ due a = false -> link_put cs eager l g t = LDone l.
Proof.
  intros R Ht. unfold link_put. rewrite (lr_req _ _ _ _ R). destruct (due a); [|reflexivity]. cbn [check_put].
  destruct Ht as [Ht|Ht]; [|discriminate]. now rewrite (proj2 (Nat.ltb_lt _ _) Ht).
Qed.

Lemma deliver_rel H a b l l' : link_rel H a b l -> link_deliver l = Some l' -> link_rel H a b l' /\ lk_arrived l' = true.
Proof.
  intros R Hd. unfold link_deliver in Hd. destruct (lk_flight l) as [|m ms] eqn:Efl; [discriminate|].
  destruct (lk_posted l && negb (lk_arrived l)) eqn:Ep; [|discriminate]. injection Hd as <-.
  apply andb_true_iff in Ep. destruct Ep as [Ep Ea]. apply negb_true_iff in Ea.
  pose proof (lr_pend _ _ _ _ R) as Hp. split; [|reflexivity].
  split; cbn [lk_last lk_stride lk_req lk_sto lk_posted lk_flight lk_arrived]; try apply R.
  - now rewrite <- (lr_posted _ _ _ _ R).
  - rewrite <- Hp. unfold pend. cbn [lk_arrived lk_rbuf lk_flight lk_sbuf]. rewrite Ea, Efl. reflexivity.
  - destruct (lr_copied _ _ _ _ R) as (fl1 & fl2 & E & H2). rewrite Efl in E. destruct fl1 as [|x fl1].
    + cbn in E. subst fl2. destruct H2 as [H2|H2]; [discriminate|]. injection H2 as -> ->. exists [], []. auto.
    + cbn in E. injection E as -> ->. exists fl1, fl2. auto.
  - intros _. now rewrite <- (lr_posted _ _ _ _ R).
Qed.

Lemma deliver_enabled H a b l : link_rel H a b l -> due b = true -> lk_arrived l = false -> (b < a)%nat -> link_deliver l <> None.
Proof.
  intros R Hd Ha Hlt. unfold link_deliver. pose proof (lr_pend _ _ _ _ R) as Hp. unfold pend in Hp. rewrite Ha in Hp. cbn [app] in Hp.
  destruct (lk_flight l) as [|m ms].
  - destruct (a - b)%nat eqn:E; [lia|]. discriminate.
  - rewrite (lr_posted _ _ _ _ R), Hd, Ha. discriminate.
Qed.

Lemma get_due H a b l g (src : grid C) : link_rel H a b l -> due b = true -> H b = save_region src cs ->
  link_get cs l g (step b) = LWait /\ lk_arrived l = false \/
  exists l' g', link_get cs l g (step b) = LDone (l', g') /\ lk_arrived l = true /\ link_rel H a (S b) l' /\
    (forall c, In c cs -> g' c = src c) /\ (forall c, ~ In c cs -> g' c = g c).
Proof.
  intros R Hd HH. unfold link_get. rewrite (lr_sto _ _ _ _ R), Hd. rewrite Nat.ltb_irrefl. cbn [check_get]. rewrite Nat.eqb_refl.
  rewrite (lr_posted _ _ _ _ R), Hd. cbn [negb orb]. destruct (lk_arrived l) eqn:Ea; [right|left; auto].
  pose proof (lr_pend _ _ _ _ R) as Hp. pose proof (lr_le _ _ _ _ R) as Hle. unfold pend in Hp. rewrite Ea in Hp. cbn [app] in Hp.
  destruct (a - b)%nat as [|k] eqn:Ek; [discriminate|]. cbn [seq map] in Hp. injection Hp as Hr Hp. rewrite HH in Hr. rewrite Hr.
  destruct (load_save cs g src) as (g' & Eg & H1 & H2). rewrite Eg.
  rewrite (due_next' l b (lr_last _ _ _ _ R) (lr_stride _ _ _ _ R)), next_steps.
  do 2 eexists. split; [reflexivity|]. split; [reflexivity|]. split; [|auto].
  split; cbn [lk_last lk_stride lk_req lk_sto lk_posted lk_flight lk_arrived]; try apply R; auto.
  - destruct (due (S b)); reflexivity.
  - unfold pend. cbn [lk_arrived lk_flight lk_sbuf app]. rewrite Hp. f_equal. f_equal. lia.
  - lia.
  - discriminate.
Qed.

Lemma get_early H a b l g t : link_rel H a b l -> (t < step b)%nat \/ due b = false -> link_get cs l g t = LDone (l, g).
Proof.
  intros R Ht. unfold link_get. rewrite (lr_sto _ _ _ _ R). destruct (due b); [|reflexivity].
  destruct Ht as [Ht|Ht]; [|discriminate]. now rewrite (proj2 (Nat.ltb_lt _ _) Ht).
Qed.

Lemma charge_rel H dflt : link_rel H 0 0 (link_charge dflt cs first last stride).
Proof.
  assert (E : step 0 = first) by (unfold link_step_no; lia).
  split; cbn; rewrite ?E; auto. exists [], []. auto.
Qed.

(** Why a sender waits: the receiver has not fetched an earlier message. *)
Lemma not_sent H a b l : link_rel H a b l -> link_sent l = false -> lk_arrived l = true -> (S b < a)%nat.
Proof.
  intros R Hs Ha. pose proof (lr_pend _ _ _ _ R) as Hp. unfold pend in Hp. rewrite Ha in Hp.
  assert (length (lk_flight l) <> O).
  { unfold link_sent in Hs. destruct (lk_flight l); [discriminate|]. cbn. lia. }
  apply (f_equal (@length _)) in Hp. rewrite app_length, !map_length, seq_length in Hp. cbn in Hp. lia.
Qed.

Lemma rel_ext H H' a b l : (forall k, (k < a)%nat -> H k = H' k) -> link_rel H a b l -> link_rel H' a b l.
Proof.
  intros HE R. split; try apply R. rewrite (lr_pend _ _ _ _ R). apply map_ext_in. intros k Hk. apply in_seq in Hk. apply HE.
  pose proof (lr_le _ _ _ _ R). lia.
Qed.

End Link.
