(** C23: what parallel writers get to see. *)
From Verif Require Import Base HaloSpec PartitionSpec PartitionManagerSpec PartitionManagerModel PartitionManagerProps PatchModel AdapterModel ScheduleSpec ScheduleFacts
  StepperModel StepperSpec StepperProps WriterModel SfcFacts CoordModel RegionModel PartitionModel.
From Coq Require Import Lia.

(** The calls for step [s]. *)
Definition at_step {C} (s : nat) (l : list (pwcall C)) : list (pwcall C) := filter (fun c => Nat.eqb (pw_step c) s) l.

(** ** Calls and log *)

Definition entry_calls {C} (a : adapter) (e : logent C) : list (pwcall C) :=
  map (fun '(step, ev) => mkCall step ev (lg_region e) (lg_grid e) (negb (lg_rim e))) (calls_at a (lg_time e)).

Section Calls.
Context {C : Type} (a : adapter).
Hypothesis Hn : (1 <= ad_nanos a)%nat.
Hypothesis Hp : (1 <= ad_period a)%nat.
Hypothesis HFL : (ad_first a <= ad_last a)%nat.
Notation F := (ad_first_nano a).

Definition ready (s : list nat) (t : nat) : Prop :=
  (F <= t)%nat /\ notify (writer_put a) s t = Ok (after a t, calls_at a t).

Lemma ready_next t : (F <= t)%nat -> ready (after a t) (S t).
Proof. intros H. split; [lia|]. apply (writer_serves a Hn Hp HFL). exact H. Qed.

Lemma ready_init : ready (writer_init a) F.
Proof. split; [lia|]. now apply writer_first. Qed.

Lemma calls_log (log : list (logent C)) : forall sg si tg ti r k, ready sg tg -> ready si ti ->
  map lg_time (filter (@lg_rim C) log) = seq tg r -> map lg_time (filter (fun e => negb (lg_rim e)) log) = seq ti k ->
  writer_calls a sg si log = Ok (flat_map (entry_calls a) log).
Proof.
  induction log as [|e log IH]; intros sg si tg ti r k Hg Hi H1 H2; [reflexivity|].
  cbn [writer_calls flat_map filter] in *. unfold entry_calls at 1. destruct (lg_rim e); cbn [negb] in H2.
  - destruct r as [|r]; [discriminate|]. cbn [map seq] in H1. injection H1 as Ht H1. rewrite Ht. destruct Hg as [HF Hg]. rewrite Hg.
    rewrite (IH (after a tg) si (S tg) ti r k); auto. now apply ready_next.
  - destruct k as [|k]; [discriminate|]. cbn [map seq] in H2. injection H2 as Ht H2. rewrite Ht. destruct Hi as [HF Hi]. rewrite Hi.
    rewrite (IH sg (after a ti) tg (S ti) r k); auto. now apply ready_next.
Qed.

Lemma filter_nil {A} (f : A -> bool) l : (forall x, In x l -> f x = false) -> filter f l = [].
Proof using.
  induction l as [|x l IH]; intros H; [reflexivity|]. cbn [filter]. rewrite (H x (or_introl eq_refl)). apply IH. intros y Hy. apply H. now right.
Qed.

Lemma at_step_entries s (log : list (logent C)) :
  at_step s (flat_map (entry_calls a) log) =
  if Nat.leb s (ad_last a) && io_due (ad_first a) (ad_last a) (ad_period a) s
  then map (fun e => mkCall s (io_event (ad_first a) (ad_last a) s) (lg_region e) (lg_grid e) (negb (lg_rim e)))
         (filter (fun e => Nat.eqb (lg_time e) (s * ad_nanos a)) log)
  else [].
Proof.
  unfold at_step. induction log as [|e log IH]; [cbn; now destruct (_ && _)|].
  cbn [flat_map]. rewrite filter_app, IH. clear IH. cbn [filter]. unfold entry_calls, calls_at.
  destruct (called a (lg_time e)) eqn:Hc.
  - destruct (called_due a Hn Hp HFL _ Hc) as (s' & Et & Ed & Hl & Hd). rewrite Ed. cbn [map filter pw_step]. destruct (Nat.eqb_spec s' s) as [->|Hne].
    + rewrite (proj2 (Nat.leb_le _ _) Hl), Hd. cbn [andb]. rewrite Et, Nat.eqb_refl. cbn [map app]. now rewrite (event_io a Hn Hp HFL).
    + rewrite (proj2 (Nat.eqb_neq (lg_time e) _)) by nia. reflexivity.
  - cbn [map filter app]. destruct (Nat.leb_spec s (ad_last a)) as [Hl|Hl]; [|reflexivity]. cbn [andb].
    destruct (io_due _ _ _ s) eqn:Hd; [|reflexivity]. destruct (Nat.eqb_spec (lg_time e) (s * ad_nanos a)) as [E|E]; [|reflexivity].
    rewrite E, (due_called a Hn Hp HFL) in Hc by auto. discriminate.
Qed.

(** Two entries per step, the rim first. *)
Lemma two_entries ser t0 rim kernel r k (log : list (logent C)) t : log_of ser t0 rim kernel r k log -> (t0 <= t < t0 + k)%nat ->
  exists e1 e2, filter (fun e => Nat.eqb (lg_time e) t) log = [e1; e2] /\ In e1 log /\ In e2 log /\
    lg_rim e1 = true /\ lg_rim e2 = false /\ lg_time e1 = t /\ lg_time e2 = t.
Proof using.
  clear Hn Hp HFL a. intros [Hr Hk _ _ Ho] Ht.
  assert (Hin : In t (map lg_time (filter (fun e => negb (lg_rim e)) log))) by (rewrite Hk; apply in_seq; lia).
  apply in_map_iff in Hin. destruct Hin as (e2 & E2 & Hin). apply filter_In in Hin. destruct Hin as [Hin Hb].
  apply negb_true_iff in Hb. apply in_split in Hin. destruct Hin as (l1 & l2 & El).
  destruct (Ho l1 e2 l2 El Hb) as (e1 & Hin1 & Hb1 & E1). apply in_split in Hin1. destruct Hin1 as (l3 & l4 & El1). rewrite El1 in El. clear Ho El1.
  exists e1, e2. subst log.
  assert (Nr : NoDup (map lg_time (filter (@lg_rim C) ((l3 ++ e1 :: l4) ++ e2 :: l2)))) by (rewrite Hr; apply seq_NoDup).
  assert (Nk : NoDup (map lg_time (filter (fun e => negb (lg_rim e)) ((l3 ++ e1 :: l4) ++ e2 :: l2)))) by (rewrite Hk; apply seq_NoDup).
  rewrite !filter_app in Nr, Nk. cbn [filter] in Nr, Nk. rewrite Hb, Hb1 in Nr, Nk. cbn [negb] in Nr, Nk.
  rewrite !map_app in Nr, Nk. cbn [map] in Nr, Nk. rewrite <- app_assoc in Nr. cbn [app] in Nr.
  apply NoDup_remove_2 in Nr. apply NoDup_remove_2 in Nk. rewrite E1, E2 in Nr. rewrite E2 in Nk.
  assert (Hno : forall x, In x l2 \/ In x l3 \/ In x l4 -> Nat.eqb (lg_time x) t = false).
  { intros x Hx. apply Nat.eqb_neq. intros Ex. destruct (lg_rim x) eqn:Bx.
    - apply Nr. rewrite !in_app_iff.
      assert (Hx' : forall l, In x l -> In t (map lg_time (filter (@lg_rim C) l))).
      { intros l Hl. rewrite <- Ex. apply in_map. apply filter_In. auto. }
      destruct Hx as [Hx|[Hx|Hx]]; apply Hx' in Hx; auto.
    - apply Nk. rewrite !in_app_iff.
      assert (Hx' : forall l, In x l -> In t (map lg_time (filter (fun e => negb (lg_rim e)) l))).
      { intros l Hl. rewrite <- Ex. apply in_map. apply filter_In. rewrite Bx. auto. }
      destruct Hx as [Hx|[Hx|Hx]]; apply Hx' in Hx; auto. }
  split; [|repeat split; auto; rewrite ?in_app_iff; cbn; auto; try congruence].
  - rewrite !filter_app. cbn [filter]. rewrite E1, E2, Nat.eqb_refl.
    rewrite (filter_nil _ l3), (filter_nil _ l4), (filter_nil _ l2) by auto. reflexivity.
Qed.

End Calls.

(** For every partition, ghost zone width and period, whatever the order of
    events: at each step the writer is due, it is called twice on each node,
    the second call being flagged as the last one. Together, the regions of all
    these calls are the simulation area, without overlap, and the grids have
    the values of the serial simulation. At other steps there are no calls. *)
Theorem C23_writers_see_all {C} (upd : nat -> coord -> list C -> C) nb (edge dflt : C) nanos d sp I E w n part area (g0 : grid C) ini start steps period
    (sts : list (nat * @action C)) :
  setting d sp I E w -> symmetric E \/ (w <= 2)%nat /\ sts = [] -> exact_cover d n part I -> reads_within I E nb ->
  (forall c, In c area <-> I c) -> NoDup area -> (1 <= nanos)%nat -> (1 <= period)%nat ->
  Forall (fun s => (1 <= fst s)%nat) sts -> steers_alike start (start + steps) sts ->
  (forall i c, (i < n)%nat -> grown E w (cells d part i) c -> ini i c = g0 c) ->
  let last := (start + steps)%nat in
  let steerers := make_steerers nanos start last sts in
  exists cfs st0,
    configs sp part w n = Some cfs /\ sim_init nanos steerers cfs dflt start (steps * nanos) ini = Ok st0 /\
    forall es st, sim_run upd nb edge nanos steerers cfs st0 es = Ok st -> finished st ->
    exists calls : list (list (pwcall C)),
      Forall2 (fun nd l => node_writer (mkAdapter nanos period start last) (n_log nd) = Ok l) (s_nodes st) calls /\
      length calls = n /\
      (forall s, (start <= s <= last)%nat -> io_due start last period s = true ->
         let now := flat_map (at_step s) calls in
         Forall (fun l => map pw_last (at_step s l) = [false; true]) calls /\
         Forall (fun call => pw_event call = io_event start last s /\
           forall c, In c (pw_region call) -> pw_grid call c = fst (serial_run upd nb edge nanos steerers area start (s - start) g0) c) now /\
         NoDup (flat_map pw_region now) /\ (forall c, In c (flat_map pw_region now) <-> I c)) /\
      (forall s, (s < start \/ last < s)%nat \/ io_due start last period s = false -> Forall (fun l => at_step s l = []) calls).
Proof.
  intros Hs Hsym Hcov Hr Ha Hna Hn Hp Hsts Halike Hini last steerers.
  destruct (C21_parallel_equals_serial upd nb edge dflt nanos d sp I E w n part area g0 ini start last (steps * nanos) sts) as (cfs & st0 & E1 & E2 & H); auto; [unfold last; lia|].
  exists cfs, st0. split; [exact E1|]. split; [exact E2|]. intros es st Hrun Hfin.
  destruct (H es st Hrun) as [Hlen Hm]. clear H. set (a := mkAdapter nanos period start last).
  set (ser := fun k => fst (serial_after upd nb edge nanos start last sts area g0 k)) in *.
  assert (HFL : (ad_first a <= ad_last a)%nat) by (unfold a, last; cbn; lia).
  assert (Hnode : forall i nd, nth_error (s_nodes st) i = Some nd -> exists rim kernel rims,
    (forall c, cells d part i c <-> In c rim \/ In c kernel) /\ NoDup (rim ++ kernel) /\ (S (steps * nanos) <= rims)%nat /\
    log_of ser (start * nanos) rim kernel rims (S (steps * nanos)) (n_log nd) /\
    node_writer a (n_log nd) = Ok (flat_map (entry_calls a) (n_log nd))).
  { intros i nd Hnd. destruct (Hm i nd Hnd) as (rim & ker & rims & Hown & Hdis & _ & Hl & Hrims & _).
    destruct (Hfin i nd Hnd) as [_ Hleft]. rewrite Hleft, Nat.sub_0_r in Hl, Hrims.
    exists rim, ker, rims. split; [exact Hown|]. split; [exact Hdis|]. split; [exact Hrims|]. split; [exact Hl|].
    unfold node_writer. eapply calls_log; try exact (lo_rims _ _ _ _ _ _ _ Hl); try exact (lo_kernels _ _ _ _ _ _ _ Hl); auto;
      apply (ready_init a Hn Hp HFL). }
  exists (map (fun nd => flat_map (entry_calls a) (n_log nd)) (s_nodes st)). split; [|split; [now rewrite map_length|split]].
  - assert (Hall : Forall (fun nd => node_writer a (n_log nd) = Ok (flat_map (entry_calls a) (n_log nd))) (s_nodes st)).
    { apply Forall_forall. intros nd Hin. apply In_nth_error in Hin. destruct Hin as (i & Hi). destruct (Hnode i nd Hi) as (rim & ker & rims & _ & _ & _ & _ & H). exact H. }
    clear - Hall. induction Hall as [|nd l Hnd Hall IH]; cbn [map]; constructor; auto.
  - intros s Hsr Hdue now.
    (* the calls of node i at step s *)
    assert (Hcalls : forall i nd, nth_error (s_nodes st) i = Some nd -> exists rim kernel e1 e2,
      (forall c, cells d part i c <-> In c rim \/ In c kernel) /\ NoDup (rim ++ kernel) /\
      at_step s (flat_map (entry_calls a) (n_log nd)) =
        [mkCall s (io_event start last s) rim e1 false; mkCall s (io_event start last s) kernel e2 true] /\
      (forall c, In c rim -> e1 c = ser ((s - start) * nanos)%nat c) /\ (forall c, In c kernel -> e2 c = ser ((s - start) * nanos)%nat c)).
    { intros i nd Hnd. destruct (Hnode i nd Hnd) as (rim & ker & rims & Hown & Hdis & Hrims & Hl & _).
      destruct (two_entries ser (start * nanos) rim ker rims _ (n_log nd) (s * nanos)%nat Hl) as (x1 & x2 & Ef & I1 & I2 & B1 & B2 & T1 & T2); [unfold last in Hsr; nia|].
      exists rim, ker, (lg_grid x1), (lg_grid x2). split; [exact Hown|]. split; [exact Hdis|].
      pose proof (lo_region _ _ _ _ _ _ _ Hl x1 I1) as R1. pose proof (lo_region _ _ _ _ _ _ _ Hl x2 I2) as R2. rewrite B1 in R1. rewrite B2 in R2.
      split; [|split].
      - rewrite (at_step_entries a Hn Hp HFL). unfold a. cbn [ad_first ad_last ad_period ad_nanos]. rewrite Hdue, (proj2 (Nat.leb_le s last)) by lia. cbn [andb].
        rewrite Ef. cbn [map]. rewrite R1, R2, B1, B2. reflexivity.
      - intros c Hc. rewrite (lo_values _ _ _ _ _ _ _ Hl x1 c I1) by (now rewrite R1). rewrite T1. now rewrite Nat.mul_sub_distr_r.
      - intros c Hc. rewrite (lo_values _ _ _ _ _ _ _ Hl x2 c I2) by (now rewrite R2). rewrite T2. now rewrite Nat.mul_sub_distr_r. }
    assert (Hnow : now = flat_map (fun nd => at_step s (flat_map (entry_calls a) (n_log nd))) (s_nodes st)).
    { unfold now. rewrite !flat_map_concat_map, map_map. reflexivity. }
    split; [|split].
    + apply Forall_forall. intros l Hin. apply in_map_iff in Hin. destruct Hin as (nd & <- & Hin). apply In_nth_error in Hin. destruct Hin as (i & Hi).
      destruct (Hcalls i nd Hi) as (rim & ker & e1 & e2 & _ & _ & -> & _). reflexivity.
    + apply Forall_forall. intros call Hin. rewrite Hnow in Hin. apply in_flat_map in Hin. destruct Hin as (nd & Hin & Hc). apply In_nth_error in Hin. destruct Hin as (i & Hi).
      destruct (Hcalls i nd Hi) as (rim & ker & e1 & e2 & Hown & _ & Ec & V1 & V2). rewrite Ec in Hc.
      assert (Hi' : (i < n)%nat) by (rewrite <- Hlen; apply nth_error_Some; congruence).
      assert (Hser : forall c, cells d part i c -> fst (serial_run upd nb edge nanos steerers area start (s - start) g0) c = ser ((s - start) * nanos)%nat c).
      { intros c Hc'. apply (serial_run_after upd nb edge nanos start last I area g0 Ha Hna (reads_closed d sp I E w nb Hs Hr) Hn sts Halike); [lia|].
        destruct Hcov as (_ & _ & Hall). apply Hall. eauto. }
      destruct Hc as [<-|[<-|[]]]; cbn [pw_event pw_region pw_grid]; (split; [reflexivity|]); intros c Hc'; rewrite Hser by (apply Hown; auto); auto.
    + assert (Hgen : forall l k, (forall i nd, nth_error l i = Some nd -> nth_error (s_nodes st) (k + i) = Some nd) ->
        NoDup (flat_map pw_region (flat_map (fun nd => at_step s (flat_map (entry_calls a) (n_log nd))) l)) /\
        forall c, In c (flat_map pw_region (flat_map (fun nd => at_step s (flat_map (entry_calls a) (n_log nd))) l)) <->
          exists i, (k <= i < k + length l)%nat /\ cells d part i c).
      { induction l as [|nd l IH]; intros k Hl.
        - cbn. split; [constructor|]. intros c. split; [tauto|]. intros (i & Hi & _). lia.
        - destruct (IH (S k)) as [N1 C1]. { intros i x Hx. replace (S k + i)%nat with (k + S i)%nat by lia. now apply Hl. }
          pose proof (Hl O nd eq_refl) as H0. rewrite Nat.add_0_r in H0. destruct (Hcalls k nd H0) as (rim & ker & e1 & e2 & Hown & Hnd & Ec & _).
          cbn [flat_map]. rewrite Ec. cbn [app flat_map pw_region]. rewrite app_assoc.
          assert (Hkn : forall i, (i < k + length (nd :: l))%nat -> (i < n)%nat).
          { intros i Hi. rewrite <- Hlen. destruct l as [|y l] using rev_ind; [cbn in Hi; assert (nth_error (s_nodes st) k <> None) by congruence; apply nth_error_Some in H; lia|].
            specialize (Hl (length (nd :: l)) y). rewrite app_comm_cons, nth_error_app2, Nat.sub_diag in Hl by lia. specialize (Hl eq_refl).
            assert (H : nth_error (s_nodes st) (k + length (nd :: l)) <> None) by congruence. apply nth_error_Some in H. cbn [length] in *. rewrite app_length in Hi. cbn [length] in Hi. lia. }
          split.
          + apply nodup_app; auto. intros c Hc Hc'. apply in_app_iff in Hc. apply Hown in Hc. apply C1 in Hc'. destruct Hc' as (i & Hi & Hc').
            destruct Hcov as (_ & Hdj & _). assert (k = i); [|lia]. apply (Hdj k i c); auto; apply Hkn; cbn [length]; lia.
          + intros c. rewrite in_app_iff, C1, in_app_iff. rewrite <- Hown. cbn [length]. split.
            * intros [Hc|(i & Hi & Hc)]; [exists k; split; [lia|exact Hc]|exists i; split; [lia|exact Hc]].
            * intros (i & Hi & Hc). destruct (Nat.eq_dec i k) as [->|Hne]; [auto|]. right. exists i. split; [lia|exact Hc]. }
      destruct (Hgen (s_nodes st) O) as [N1 C1]; [auto|]. rewrite Hnow. split; [exact N1|]. intros c. rewrite C1, Hlen. cbn [Nat.add].
      destruct Hcov as (_ & _ & Hall). rewrite Hall. split; intros (i & Hi & Hc); exists i; split; auto; lia.
  - intros s Hno. apply Forall_forall. intros l Hin. apply in_map_iff in Hin. destruct Hin as (nd & <- & Hin). apply In_nth_error in Hin. destruct Hin as (i & Hi).
    rewrite (at_step_entries a Hn Hp HFL). unfold a. cbn [ad_first ad_last ad_period ad_nanos]. destruct Hno as [[Hno|Hno]|Hno].
    + destruct (Nat.leb s last && io_due start last period s); [|reflexivity]. destruct (Hnode i nd Hi) as (rim & ker & rims & _ & _ & _ & Hl & _).
      rewrite filter_nil; [reflexivity|]. intros e He. apply Nat.eqb_neq. intros Et.
      assert (Ht : (start * nanos <= lg_time e)%nat).
      { destruct (lg_rim e) eqn:Eb.
        - assert (Hx : In (lg_time e) (map lg_time (filter (@lg_rim C) (n_log nd)))) by (apply in_map, filter_In; auto).
          rewrite (lo_rims _ _ _ _ _ _ _ Hl) in Hx. apply in_seq in Hx. lia.
        - assert (Hx : In (lg_time e) (map lg_time (filter (fun e => negb (lg_rim e)) (n_log nd)))) by (apply in_map, filter_In; rewrite Eb; auto).
          rewrite (lo_kernels _ _ _ _ _ _ _ Hl) in Hx. apply in_seq in Hx. lia. }
      nia.
    + rewrite (proj2 (Nat.leb_gt s last)) by lia. reflexivity.
    + rewrite Hno, andb_false_r. reflexivity.
Qed.
Print Assumptions C23_writers_see_all.

(** Steps 4 to 7 of the example above, period 2: for each node the calls with
    the number of cells, and the cells of step 6. *)
Example C23_example :
  option_map (fun st => (
    map (fun nd => match node_writer (mkAdapter 2 2 4 7) (n_log nd) with
      | Ok l => map (fun c => (pw_step c, pw_event c, length (pw_region c), pw_last c)) l
      | _ => []
      end) (s_nodes st),
    flat_map (fun nd => match node_writer (mkAdapter 2 2 4 7) (n_log nd) with
      | Ok l => flat_map (fun c => map (fun x => (x, pw_grid c x)) (filter (fun x => existsb (fun y => if list_eq_dec Z.eq_dec x y then true else false) ex_cells) (pw_region c))) (at_step 6 l)
      | _ => []
      end) (s_nodes st)))
    (ex_run ex_upd ex_nb (-7) 0 2 (make_steerers 2 4 7 ex_sts) ex_grid ex_part 2 3 4 6 (fun _ => ex_ini) 60) =
  Some ([[(4, IoInitialized, 11, false); (4, IoInitialized, 5, true); (6, IoStep, 11, false); (6, IoStep, 5, true); (7, IoAllDone, 11, false); (7, IoAllDone, 5, true)];
         [(4, IoInitialized, 8, false); (4, IoInitialized, 0, true); (6, IoStep, 8, false); (6, IoStep, 0, true); (7, IoAllDone, 8, false); (7, IoAllDone, 0, true)];
         [(4, IoInitialized, 6, false); (4, IoInitialized, 0, true); (6, IoStep, 6, false); (6, IoStep, 0, true); (7, IoAllDone, 6, false); (7, IoAllDone, 0, true)]]%nat,
        map (fun x => (x, fst (serial_run ex_upd ex_nb (-7) 2 (make_steerers 2 4 7 ex_sts) ex_area 4 2 ex_ini) x)) [[2; 4]; [0; 0]; [3; 1]; [3; 2]; [5; 4]]).
Proof. vm_compute. reflexivity. Qed.
