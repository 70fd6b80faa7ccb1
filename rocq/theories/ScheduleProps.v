(** C28, C29, C30, C31: when writers, steerers and load balancers are called. *)
From Verif Require Import Base PatchModel AdapterModel ScheduleModel ScheduleSpec ScheduleFacts.

(** ** Reading the schedule *)

(** The complete schedule: the first step, the multiples of the period in
    between, the last step. *)
Lemma schedule_complete first last period upto : (first <= last <= upto)%nat ->
  io_schedule first last period upto =
    if Nat.eqb first last then [(last, IoAllDone)]
    else (first, IoInitialized) ::
         map (fun s => (s, IoStep)) (filter (fun s => Nat.eqb (Nat.modulo s period) 0) (seq (S first) (last - S first))) ++
         [(last, IoAllDone)].
Proof.
  intros H. unfold io_schedule, io_steps. rewrite Nat.min_r by lia. destruct (Nat.eqb_spec first last) as [e|e].
  - rewrite <- e. replace (S first - first)%nat with 1%nat by lia. cbn [seq filter]. unfold io_due, io_event. rewrite Nat.eqb_refl. cbn [orb map].
    now rewrite Nat.eqb_refl.
  - replace (S last - first)%nat with (S (last - S first + 1))%nat by lia. cbn [seq]. rewrite seq_app. cbn [seq].
    replace (S first + (last - S first))%nat with last by lia. cbn [filter]. unfold io_due at 1. rewrite Nat.eqb_refl. cbn [orb map].
    unfold io_event at 1. rewrite (proj2 (Nat.eqb_neq first last)) by auto. rewrite Nat.eqb_refl. f_equal.
    rewrite filter_app, map_app. f_equal.
    + assert (Hm : forall s, In s (seq (S first) (last - S first)) -> io_due first last period s = Nat.eqb (Nat.modulo s period) 0 /\ io_event first last s = IoStep).
      { intros s Hs. apply in_seq in Hs. unfold io_due, io_event. rewrite (proj2 (Nat.eqb_neq s first)), (proj2 (Nat.eqb_neq s last)) by lia. auto. }
      rewrite (filter_ext_in _ (fun s => Nat.eqb (Nat.modulo s period) 0)) by (intros s Hs; now apply Hm).
      apply map_ext_in. intros s Hs. apply filter_In in Hs. destruct (Hm s (proj1 Hs)) as [_ ->]. reflexivity.
    + cbn [filter]. unfold io_due. rewrite Nat.eqb_refl, orb_true_r. cbn [orb map]. unfold io_event. now rewrite Nat.eqb_refl.
Qed.

(** The writer is called for each due step up to the current one, in order,
    once, with the right event; there are no exceptions. [ts] are the nano
    steps the stepper notifies the adapter of, after the first one. *)
Theorem C28_writer_calls : forall a ts, (1 <= ad_nanos a)%nat -> (1 <= ad_period a)%nat -> (ad_first a <= ad_last a)%nat ->
  gapless (ad_first a * ad_nanos a) ts ->
  exists s, notify_all (writer_put a) (writer_init a) ((ad_first a * ad_nanos a)%nat :: ts) =
    Ok (s, io_schedule (ad_first a) (ad_last a) (ad_period a) (Nat.div (List.last ts (ad_first a * ad_nanos a)) (ad_nanos a))%nat).
Proof.
  intros a ts Hn Hp HL Hg. eexists. fold (ad_first_nano a) in *.
  rewrite (run_first a Hn Hp HL (writer_put a) (writer_init a) ts (writer_serves a Hn Hp HL) (writer_first a Hn Hp HL) Hg).
  f_equal. f_equal. apply schedule_calls; auto. clear - Hg. revert Hg. generalize (ad_first_nano a). intros n.
  assert (H : forall ts m, gapless m ts -> (m <= List.last ts m)%nat).
  { clear. induction ts as [|t ts IH]; intros m Hg; [cbn; lia|]. destruct Hg as [Ht Hg]. specialize (IH t Hg). destruct ts as [|t2 ts]; [cbn in *; lia|].
    change (List.last (t :: t2 :: ts) m) with (List.last (t2 :: ts) m). assert (El : List.last (t2 :: ts) m = List.last (t2 :: ts) t).
    { clear. revert t2. induction ts as [|x ts IH]; intros t2; [reflexivity|]. exact (IH x). }
    rewrite El. lia. }
  apply H.
Qed.
Print Assumptions C28_writer_calls.

Theorem C29_steerer_calls : forall a ts, (1 <= ad_nanos a)%nat -> (1 <= ad_period a)%nat -> (ad_first a <= ad_last a)%nat ->
  gapless (ad_first a * ad_nanos a) ts ->
  exists s, notify_all (steerer_get a) (steerer_init a) ((ad_first a * ad_nanos a)%nat :: ts) =
    Ok (s, io_schedule (ad_first a) (ad_last a) (ad_period a) (Nat.div (List.last ts (ad_first a * ad_nanos a)) (ad_nanos a))%nat).
Proof.
  intros a ts Hn Hp HL Hg. destruct (C28_writer_calls a ts Hn Hp HL Hg) as (s & Hs). fold (ad_first_nano a) in *.
  rewrite (run_first a Hn Hp HL (writer_put a) (writer_init a) ts (writer_serves a Hn Hp HL) (writer_first a Hn Hp HL) Hg) in Hs.
  rewrite (run_first a Hn Hp HL (steerer_get a) (steerer_init a) ts (steerer_serves a Hn Hp HL) (steerer_first a Hn Hp HL) Hg). eauto.
Qed.
Print Assumptions C29_steerer_calls.

(** Steps 5 to 12, period 3, two nano steps per step; the stepper runs on to
    nano step 26. *)
Example C28_C29_example :
  let a := mkAdapter 2 3 5 12 in
  let calls := [(5, IoInitialized); (6, IoStep); (9, IoStep); (12, IoAllDone)]%nat in
  gapless 10 (10 :: seq 11 16)%nat /\
  io_schedule 5 12 3 13 = calls /\
  (exists s, notify_all (writer_put a) (writer_init a) (10 :: 10 :: seq 11 16)%nat = Ok (s, calls)) /\
  (exists s, notify_all (steerer_get a) (steerer_init a) (10 :: 10 :: seq 11 16)%nat = Ok (s, calls)).
Proof. split; [cbn; lia|]. vm_compute. repeat split; eauto. Qed.

(** ** Serial simulation *)

(** If no steerer ends the simulation: all steps are performed; the writer's
    calls are those of the schedule; the steerer is called as well for the
    multiples of its period, including the first step. *)
Theorem C30_serial_events : forall start last wp sp ends fuel,
  (1 <= wp)%nat -> (1 <= sp)%nat -> (start < last)%nat -> (last - start <= fuel)%nat ->
  (forall s, (start <= s <= last)%nat -> ends s = false) ->
  exists s, serial_sim_run start last wp sp ends fuel = Some s /\ sr_step s = last /\
    sr_writer s = io_schedule start last wp last /\
    sr_steerer s = (start, IoInitialized) ::
      map (fun t => (t, IoStep)) (filter (fun t => Nat.eqb (Nat.modulo t sp) 0) (seq start (last - start))) ++
      [(last, IoAllDone)].
Proof.
  intros start last wp sp ends fuel Hw Hs Hl Hf Hends. destruct (run_ok start last wp sp ends Hw Hs fuel Hl Hf) as (s & Es & Hok & Hd & _).
  assert (He : sr_step s = last).
  { destruct Hd as [Hd|Hd]; [exact Hd|]. destruct Hok as (Hr & _ & _ & Hok). rewrite Hok in Hd. exfalso. unfold serial_ended in Hd.
    rewrite Hends in Hd by lia. cbn [orb] in Hd. apply existsb_exists in Hd. destruct Hd as (x & Hx & Hd). apply filter_In in Hx. destruct Hx as [Hx _].
    apply in_seq in Hx. rewrite Hends in Hd by lia. discriminate. }
  eexists. split; [exact Es|]. cbn [sr_step sr_writer sr_steerer]. destruct Hok as (_ & H1 & H2 & _). rewrite He in *. split; [reflexivity|].
  split; [exact H1|]. rewrite H2. reflexivity.
Qed.
Print Assumptions C30_serial_events.

(** If a steerer ends the simulation, no further step is performed, and the
    steerers are notified nevertheless. *)
Theorem C30_serial_ended : forall start last wp sp ends fuel,
  (1 <= wp)%nat -> (1 <= sp)%nat -> (start < last)%nat -> (last - start <= fuel)%nat ->
  exists s, serial_sim_run start last wp sp ends fuel = Some s /\ (start <= sr_step s <= last)%nat /\
    sr_writer s = io_schedule start last wp (sr_step s) /\
    sr_steerer s = (start, IoInitialized) ::
      map (fun t => (t, IoStep)) (filter (fun t => Nat.eqb (Nat.modulo t sp) 0) (seq start (sr_step s - start))) ++
      [(sr_step s, IoAllDone)] /\
    (forall t, (start <= t)%nat -> (S t < sr_step s)%nat -> Nat.modulo t sp = O -> ends t = false) /\
    ((sr_step s < last)%nat -> exists t, (start <= t < sr_step s \/ t = start)%nat /\ ends t = true).
Proof.
  intros start last wp sp ends fuel Hw Hs Hl Hf. destruct (run_ok start last wp sp ends Hw Hs fuel Hl Hf) as (s & Es & Hok & Hd & Hne).
  eexists. split; [exact Es|]. cbn [sr_step sr_writer sr_steerer]. destruct Hok as (Hr & H1 & H2 & H3).
  split; [exact Hr|]. split; [exact H1|]. split; [now rewrite H2|]. split.
  - intros t Ht1 Ht2 Hm. specialize (Hne (S t) ltac:(lia)). unfold serial_ended in Hne. apply orb_false_elim in Hne. destruct Hne as [_ Hne].
    destruct (ends t) eqn:Et; [|reflexivity]. exfalso. apply Bool.not_true_iff_false in Hne. apply Hne. apply existsb_exists. exists t.
    split; [|exact Et]. apply filter_In. split; [apply in_seq; lia|]. now apply Nat.eqb_eq.
  - intros Hlt. destruct Hd as [Hd|Hd]; [lia|]. rewrite H3 in Hd. unfold serial_ended in Hd. apply orb_prop in Hd. destruct Hd as [Hd|Hd].
    + exists start. auto.
    + apply existsb_exists in Hd. destruct Hd as (x & Hx & Hd). apply filter_In in Hx. destruct Hx as [Hx _]. apply in_seq in Hx. exists x. split; [left; lia|exact Hd].
Qed.
Print Assumptions C30_serial_ended.

Example C30_example :
  serial_sim_run 4 10 3 2 (fun _ => false) 10 =
    Some (mkSerial 10 [(4, IoInitialized); (6, IoStep); (9, IoStep); (10, IoAllDone)]
            [(4, IoInitialized); (4, IoStep); (6, IoStep); (8, IoStep); (10, IoAllDone)] false)%nat /\
  serial_sim_run 4 10 3 2 (fun t => Nat.eqb t 6) 10 =
    Some (mkSerial 7 [(4, IoInitialized); (6, IoStep)] [(4, IoInitialized); (4, IoStep); (6, IoStep); (7, IoAllDone)] true)%nat.
Proof. split; reflexivity. Qed.

(** Writers aren't told of the end of the simulation if there are no steps to
    be performed, or if a steerer ends it. *)
Theorem C65_writer_end_refuted :
  (exists start last wp sp s, (start <= last)%nat /\ serial_sim_run start last wp sp (fun _ => false) 10 = Some s /\
     sr_step s = last /\ forall t, ~ In (t, IoAllDone) (sr_writer s)) /\
  (exists start last wp sp ends s, (start < last)%nat /\ serial_sim_run start last wp sp ends 10 = Some s /\
     (forall t, ~ In (t, IoAllDone) (sr_writer s)) /\ exists t, In (t, IoAllDone) (sr_steerer s)).
Proof.
  split.
  - exists 3%nat, 3%nat, 1%nat, 1%nat. eexists. split; [lia|]. split; [reflexivity|]. split; [reflexivity|]. cbn. intros t [H|[]]. discriminate.
  - exists 4%nat, 10%nat, 3%nat, 2%nat, (fun t => Nat.eqb t 6). eexists. split; [lia|]. split; [reflexivity|]. split.
    + cbn. intros t H. repeat (destruct H as [H|H]; [discriminate|]). exact H.
    + exists 7%nat. cbn. tauto.
Qed.

(** In a serial simulation steerers are called twice for the first step if that
    is a multiple of their period, in a parallel simulation only once. *)
Theorem C66_steerer_calls_differ_refuted : exists start last period s st calls,
  serial_sim_run start last 1 period (fun _ => false) 10 = Some s /\
  notify_all (steerer_get (mkAdapter 1 period start last)) (steerer_init (mkAdapter 1 period start last)) (seq start (S (last - start))) = Ok (st, calls) /\
  sr_steerer s <> calls /\ sr_steerer s = (start, IoInitialized) :: (start, IoStep) :: tl calls.
Proof.
  exists 0%nat, 4%nat, 2%nat. do 3 eexists. split; [reflexivity|]. split; [reflexivity|]. split; [discriminate|reflexivity].
Qed.

(** ** Hierarchical simulation *)

(** [hiers]: several calls of [nanoStep], one after the other. *)
Fixpoint hiers nanos last period (s : hier) (ks : list (nat * nat)) : outcome hier :=
  match ks with
  | [] => Ok s
  | (fuel, k) :: ks' => match hier_steps nanos last period fuel s k with Ok s' => hiers nanos last period s' ks' | x => x end
  end.

(** However a simulation is divided into calls of [step] and [run], all nano
    steps are performed once and in order, and loads are balanced at the
    multiples of the period, counted from the first step. *)
Theorem C31_events : forall nanos start last period ks,
  (1 <= nanos)%nat -> (1 <= period)%nat -> (start <= last)%nat ->
  Forall (fun fk => snd fk <= fst fk)%nat ks -> (list_sum (map snd ks) <= (last - start) * nanos)%nat ->
  exists s, hiers nanos last period (hier_init nanos start last period) ks = Ok s /\
    hs_now s = (start * nanos + list_sum (map snd ks))%nat /\
    hs_updated s = seq (start * nanos) (list_sum (map snd ks)) /\
    hs_balanced s = balance_times (start * nanos) period (hs_now s) /\
    ((hs_now s < last * nanos)%nat -> exists s', hier_run nanos last period (last * nanos) s = Ok s' /\
       hs_now s' = (last * nanos)%nat /\ hs_updated s' = seq (start * nanos) ((last - start) * nanos) /\
       hs_balanced s' = balance_times (start * nanos) period (last * nanos)).
Proof.
  intros nanos start last period ks Hn Hp Hl Hf Hsum.
  assert (H : forall ks s k, Forall (fun fk => snd fk <= fst fk)%nat ks -> hier_ok nanos start last period s k -> (k + list_sum (map snd ks) <= (last - start) * nanos)%nat ->
    exists s', hiers nanos last period s ks = Ok s' /\ hier_ok nanos start last period s' (k + list_sum (map snd ks))).
  { clear ks Hf Hsum. induction ks as [|(f & r) ks IH]; intros s k Hf Hok Hsum; cbn [hiers map list_sum fold_right snd].
    - exists s. rewrite Nat.add_0_r. auto.
    - cbn [map list_sum fold_right snd] in Hsum. inversion Hf as [|? ? Hr Hf']; subst. cbn [fst snd] in Hr. fold (list_sum (map snd ks)) in *.
      destruct (steps_ok nanos start last period Hn Hp Hl f s k r Hok ltac:(nia) Hr) as (s' & -> & Hok').
      destruct (IH s' (k + r)%nat Hf' Hok' ltac:(lia)) as (s'' & E & Hok''). exists s''. split; [exact E|]. now rewrite Nat.add_assoc. }
  destruct (H ks _ O Hf (init_ok nanos start last period Hn Hp Hl) Hsum) as (s & E & Hok). cbn [Nat.add] in Hok. exists s. split; [exact E|].
  pose proof Hok as (H1 & H2 & H3 & _). rewrite H1. split; [reflexivity|]. split; [exact H3|]. split; [exact H2|]. intros HL.
  unfold hier_run. rewrite (time_to_last_ok nanos start last period s _ Hok HL).
  destruct (steps_ok nanos start last period Hn Hp Hl (last * nanos) s _ (last * nanos - (start * nanos + list_sum (map snd ks))) Hok ltac:(lia) ltac:(lia)) as (s' & E' & (K1 & K2 & K3 & _)).
  exists s'. split; [exact E'|]. replace (list_sum (map snd ks) + (last * nanos - (start * nanos + list_sum (map snd ks))))%nat with ((last - start) * nanos)%nat in * by nia.
  replace (start * nanos + (last - start) * nanos)%nat with (last * nanos)%nat in * by nia. auto.
Qed.
Print Assumptions C31_events.

(** Steps 3 to 10 with two nano steps each, load balancing every 3 steps; two
    calls of [step], then [run]. *)
Example C31_example : exists s s',
  hiers 2 10 6 (hier_init 2 3 10 6) [(2, 2); (2, 2)]%nat = Ok s /\ hs_now s = 10%nat /\ hs_balanced s = [] /\
  hier_run 2 10 6 20 s = Ok s' /\ hs_now s' = 20%nat /\ hs_balanced s' = [12; 18]%nat /\ hs_updated s' = seq 6 14.
Proof.
  eexists. eexists. split; [vm_compute; reflexivity|]. split; [reflexivity|]. split; [reflexivity|].
  split; [vm_compute; reflexivity|]. repeat split.
Qed.

(** A further call of [step] after the last one uses [events.begin()] of an
    empty map. *)
Theorem C67_step_after_end_refuted : exists nanos start last period s,
  hier_run nanos last period 100 (hier_init nanos start last period) = Ok s /\ hier_step nanos last period 100 s = Fail.
Proof. exists 1%nat, 0%nat, 3%nat, 2%nat. eexists. split; reflexivity. Qed.
