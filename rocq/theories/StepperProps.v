(** C21, C22: simulations distributed over several nodes. *)
From Verif Require Import Base RegionSpec RegionModel RegionRep RegionIterModel RegionStreaks RegionOpsModel
  RegionOps CoordModel CoordSpec CoordFacts HaloSpec PartitionSpec PartitionManagerModel HaloFacts
  PartitionManagerSpec PartitionModel StripingProps PartitionManagerFacts PartitionManagerProps TopologyFacts PatchModel AdapterModel ScheduleSpec ScheduleFacts StepperModel StepperSpec StepperFacts ConfigFacts SfcFacts.

(** When adapters call is when they are due. *)
Section Due.
Context (a : adapter).
Hypothesis Hn : (1 <= ad_nanos a)%nat.
Hypothesis Hp : (1 <= ad_period a)%nat.
Hypothesis HFL : (ad_first a <= ad_last a)%nat.

Lemma called_due t : called a t = true ->
  exists s, t = (s * ad_nanos a)%nat /\ Nat.div t (ad_nanos a) = s /\ (s <= ad_last a)%nat /\ io_due (ad_first a) (ad_last a) (ad_period a) s = true.
Proof.
  intros H. destruct (called_whole a Hn Hp HFL t H) as [Hm _]. exists (Nat.div t (ad_nanos a)).
  assert (Et : t = (Nat.div t (ad_nanos a) * ad_nanos a)%nat) by (rewrite (Nat.div_mod t (ad_nanos a)) at 1 by lia; lia).
  split; [exact Et|]. split; [reflexivity|]. remember (Nat.div t (ad_nanos a)) as s eqn:Es. clear Es.
  unfold called in H. unfold io_due, ad_first_nano, ad_last_nano, ad_stride in *. subst t. apply andb_prop in H. destruct H as [H0 H].
  apply Nat.leb_le in H0. split; [nia|].
  apply orb_prop in H. destruct H as [H|H]; [apply orb_prop in H; destruct H as [H|H]|].
  - apply Nat.eqb_eq in H. assert (s = ad_first a) by nia. subst. now rewrite Nat.eqb_refl.
  - apply Nat.eqb_eq in H. assert (s = ad_last a) by nia. subst. rewrite Nat.eqb_refl. now rewrite orb_true_r.
  - apply Nat.eqb_eq in H. rewrite Nat.mul_mod_distr_r in H by lia. assert (E : Nat.modulo s (ad_period a) = O) by nia. rewrite E. cbn. now rewrite orb_true_r.
Qed.

Lemma due_called s : (s <= ad_last a)%nat -> io_due (ad_first a) (ad_last a) (ad_period a) s = true ->
  called a (s * ad_nanos a) = true.
Proof.
  intros Hs H. unfold called, io_due, ad_first_nano, ad_last_nano, ad_stride in *. rewrite (proj2 (Nat.leb_le _ _)) by nia. cbn [andb].
  apply orb_prop in H. destruct H as [H|H]; [apply orb_prop in H; destruct H as [H|H]|].
  - apply Nat.eqb_eq in H. subst. now rewrite Nat.eqb_refl.
  - apply Nat.eqb_eq in H. subst. rewrite Nat.eqb_refl. now rewrite orb_true_r.
  - apply Nat.eqb_eq in H. rewrite Nat.mul_mod_distr_r, H by lia. cbn. now rewrite orb_true_r.
Qed.

Lemma event_io s : ad_event a (s * ad_nanos a) = io_event (ad_first a) (ad_last a) s.
Proof.
  unfold ad_event, io_event, ad_first_nano, ad_last_nano.
  destruct (Nat.eqb_spec (s * ad_nanos a) (ad_last a * ad_nanos a)), (Nat.eqb_spec s (ad_last a)); try (exfalso; nia); [reflexivity|].
  destruct (Nat.eqb_spec (s * ad_nanos a) (ad_first a * ad_nanos a)), (Nat.eqb_spec s (ad_first a)); try (exfalso; nia); reflexivity.
Qed.

End Due.

Lemma act_steered {C} nanos start last (sts : list (nat * @action C)) k c x : (1 <= nanos)%nat -> (start <= last)%nat ->
  Forall (fun s => (1 <= fst s)%nat) sts ->
  act_at (make_steerers nanos start last sts) (start * nanos) k c x = steered nanos start last sts (start * nanos + k) c x.
Proof.
  intros Hn Hl. unfold act_at, steered. set (t := (start * nanos + k)%nat). revert x.
  induction sts as [|[p f] sts IH]; intros x Hs; cbn [make_steerers map fold_left]; [now destruct (_ && _)|].
  inversion Hs as [|y z Hp Hs']; subst y z. cbn [fst] in Hp. fold (make_steerers nanos start last sts). rewrite IH by auto. clear IH.
  set (a := mkAdapter nanos p start last). unfold calls_at.
  destruct (called a t) eqn:Ec.
  - destruct (called_due a Hn Hp Hl t Ec) as (s & Et & Ed & Hs0 & Hdue). cbn [ad_nanos ad_first ad_last ad_period a] in *.
    cbn [fold_left]. rewrite Ed. rewrite Et at 1 2. rewrite Nat.mod_mul by lia. cbn [Nat.eqb andb]. rewrite (proj2 (Nat.leb_le _ _) Hs0).
    rewrite Hdue. pose proof (event_io a Hn Hp Hl s) as Ee. cbn [ad_nanos ad_first ad_last a] in Ee. rewrite <- Ee, <- Et. reflexivity.
  - cbn [fold_left]. destruct (Nat.eqb_spec (Nat.modulo t nanos) 0) as [Em|Em]; [|reflexivity]. cbn [andb].
    destruct (Nat.leb_spec (Nat.div t nanos) last) as [El|El]; [|reflexivity].
    destruct (io_due start last p (Nat.div t nanos)) eqn:Hdue; [|reflexivity].
    exfalso. assert (Et : t = (Nat.div t nanos * nanos)%nat) by (rewrite (Nat.div_mod t nanos) at 1 by lia; lia).
    pose proof (due_called a Hn Hp Hl (Nat.div t nanos) El Hdue) as Hc. cbn [ad_nanos a] in Hc. rewrite <- Et in Hc. congruence.
Qed.

Section Props.
Context {C : Type} (upd : nat -> coord -> list C -> C) (nb : coord -> list (option coord)) (edge dflt : C) (nanos : nat).
Context (d : nat) (sp : space) (I : coord -> Prop) (E : neigh) (w n : nat) (part : nat -> option indices).
Context (area : list coord) (g0 : grid C) (ini : nat -> grid C) (start last N : nat) (sts : list (nat * @action C)).

Let steerers := make_steerers nanos start last sts.
Let ser k := fst (serial_after upd nb edge nanos start last sts area g0 k).
Let ste k := serial_steered upd nb edge nanos start last sts area g0 k.
Let T0 := (start * nanos)%nat.

Hypothesis Hset : setting d sp I E w.
Hypothesis Hsym : symmetric E \/ (w <= 2)%nat /\ sts = [].
Hypothesis Hcover : exact_cover d n part I.
Hypothesis Hreads : reads_within I E nb.
Hypothesis Harea : forall c, In c area <-> I c.
Hypothesis Hnanos : (1 <= nanos)%nat.
Hypothesis Hlast : (start <= last)%nat.
Hypothesis Hsts : Forall (fun s => (1 <= fst s)%nat) sts.
Hypothesis Hini : forall i c, (i < n)%nat -> grown E w (cells d part i) c -> ini i c = g0 c.

Lemma width_pos : (1 <= w)%nat.
Proof. destruct Hset; auto. Qed.

Lemma ste_st k c : ste k c = st steerers ser T0 k c.
Proof.
  unfold ste, serial_steered, st, steer_at, act, T0, steerers. destruct k as [|k]; [reflexivity|]. now rewrite act_steered by auto.
Qed.

Lemma ser_step k c : I c -> ser (S k) c = new_cell upd nb edge (Nat.modulo (T0 + k) nanos) (st steerers ser T0 k) c.
Proof.
  intros Hc. rewrite <- (new_cell_ext upd nb edge _ (ste k)) by (intros; apply ste_st). unfold ste, serial_steered, ser. cbn [serial_after].
  destruct (serial_after upd nb edge nanos start last sts area g0 k) as [cur new] eqn:Es.
  cbn [serial_nano fst]. destruct (update_region_spec upd nb edge (Nat.modulo k nanos) area (steer_at nanos start last sts k cur) new) as [H _].
  rewrite H by (now apply Harea). f_equal. unfold T0. rewrite Nat.add_comm, Nat.mod_add by lia. reflexivity.
Qed.

Lemma adapters_ok : Forall (adapter_ok nanos T0) steerers.
Proof.
  unfold steerers, make_steerers. apply Forall_map. eapply Forall_impl; [|exact Hsts]. intros [p f] Hp. unfold adapter_ok.
  cbn [fst ad_nanos ad_period ad_first ad_last] in *. unfold ad_first_nano, T0. cbn [ad_first ad_nanos]. auto.
Qed.

Lemma run_facts : exists cfs st0,
  configs sp part w n = Some cfs /\ length cfs = n /\
  sim_init nanos steerers cfs dflt start N ini = Ok st0 /\
  sim_inv nanos steerers ser T0 w N cfs (fun _ => O) st0 /\
  (forall i cf, nth_error cfs i = Some cf -> (i < n)%nat /\ config_spec d I E w n part i cf) /\
  (forall ms st, sim_inv nanos steerers ser T0 w N cfs ms st ->
     (forall es, match sim_run upd nb edge nanos steerers cfs st es with
       | Ok st' => exists ms', sim_inv nanos steerers ser T0 w N cfs ms' st' /\ (measure w cfs st' + length es <= measure w cfs st)%nat
       | Wait => True
       | Fail => False
       end) /\
     (forall i nd, nth_error (s_nodes st) i = Some nd -> ~ done nd -> exists e st', sim_step upd nb edge nanos steerers cfs st e = Ok st')).
Proof.
  pose proof (setting_laws d sp I E w Hset) as L. pose proof width_pos as Hw.
  destruct (configs_ok d sp I E w L Hw n part Hcover) as (cfs & Ec & Lc & Hspec & Hmatch).
  assert (Hcfs : forall i cf, nth_error cfs i = Some cf -> cfg_ok nb I steerers w cf).
  { intros i cf H. destruct (Hspec i cf H) as [Hi S]. eapply spec_cfg_ok; eauto.
    destruct Hsym as [Hs|[Hs1 Hs2]]; [auto|]. right. split; [exact Hs1|]. unfold steerers. now rewrite Hs2. }
  assert (Ho : forall i cf j cs, nth_error cfs i = Some cf -> In (j, cs) (cf_out cf) -> j <> i /\ (j < length cfs)%nat).
  { intros i cf j cs H Hj. destruct (Hspec i cf H) as [Hi S]. rewrite Lc. eapply cs_out_lt; eauto. }
  assert (Hin : forall i cf j cs, nth_error cfs i = Some cf -> In (j, cs) (cf_in cf) -> j <> i /\ (j < length cfs)%nat).
  { intros i cf j cs H Hj. destruct (Hspec i cf H) as [Hi S]. rewrite Lc. eapply cs_in_lt; eauto. }
  destruct (sim_init_ok upd nb edge nanos Hnanos I steerers ser T0 w N Hw adapters_ok ser_step cfs Hcfs Hmatch Ho Hin dflt start ini eq_refl) as (st0 & E0 & Inv0).
  { intros i cf H c Hc. destruct (Hspec i cf H) as [Hi S]. unfold ser. cbn [serial_after fst]. unfold T0, steerers. rewrite act_steered, Nat.add_0_r by auto.
    f_equal. apply Hini; [exact Hi|].
    assert (Hown : forall c, cells d part i c -> grown E w (cells d part i) c).
    { intros c1 H1. exists c1. split; [exact H1|]. eapply walk_more; [exact L| |apply Nat.le_0_l|reflexivity].
      eapply cover_ins; eauto. }
    destruct Hc as [Hc|[Hc|(j & cs & Hj & Hc)]].
    - apply Hown. unfold inner in Hc. apply (cs_own _ _ _ _ _ _ _ _ S). right. apply (cs_inner _ _ _ _ _ _ _ _ S) in Hc; [|lia].
      rewrite Nat.sub_diag in Hc. now apply (proj1 (grown_0 _ _ _)) in Hc.
    - apply Hown. apply (cs_own _ _ _ _ _ _ _ _ S). left. apply (cs_rim _ _ _ _ _ _ _ _ S) in Hc; [|lia].
      rewrite Nat.sub_diag in Hc. now apply (proj1 (grown_0 _ _ _)) in Hc.
    - apply (cs_in _ _ _ _ _ _ _ _ S j cs c Hj) in Hc. apply Hc. }
  exists cfs, st0. split; [exact Ec|]. split; [exact Lc|]. split; [exact E0|]. split; [exact Inv0|]. split; [exact Hspec|].
  intros ms st Inv. split.
  - intros es. apply (sim_run_ok upd nb edge nanos Hnanos I steerers ser T0 w N Hw adapters_ok ser_step cfs Hcfs Hmatch Ho Hin es ms st Inv).
  - intros i nd Hnd Hd. apply (progress upd nb edge nanos Hnanos I steerers ser T0 w N Hw adapters_ok ser_step cfs Hcfs Hmatch Ho Hin ms st Inv (S (ms i)) i nd); auto.
Qed.

Lemma inv_matches cf i m nd : config_spec d I E w n part i cf -> (i < n)%nat -> node_inv nanos steerers ser T0 w N cf m nd ->
  node_matches ser ste nanos T0 N w (cells d part i) nd.
Proof.
  intros S Hi Inv. pose proof width_pos as Hw.
  assert (Hr : forall c, In c (rim_at cf w) <-> is_rim d I E w part i c).
  { intros c. fold (rim cf w c). rewrite (cs_rim _ _ _ _ _ _ _ _ S) by lia. rewrite Nat.sub_diag. apply grown_0. }
  assert (Hk : forall c, In c (inner_at cf w) <-> is_kernel d I E w part i c).
  { intros c. fold (inner cf w c). rewrite (cs_inner _ _ _ _ _ _ _ _ S) by lia. rewrite Nat.sub_diag. apply grown_0. }
  assert (Hlog : forall kk gk log, log_ok ser T0 w cf kk gk log -> log_of ser T0 (rim_at cf w) (inner_at cf w) (Datatypes.S gk) (Datatypes.S kk) log).
  { intros kk gk log (H1 & H2 & H3 & H4). rewrite Forall_forall in H3. split; auto.
    - intros e He. apply (H3 e He).
    - intros e c He Hc. destruct (H3 e He) as (Hreg & k & Ht & Hg). rewrite (Hg c Hc), Ht. f_equal. f_equal. lia. }
  assert (Hinn : forall t c, (t <= w)%nat -> inner cf w c -> inner cf t c).
  { intros t c Ht. rewrite !(cs_inner _ _ _ _ _ _ _ _ S) by lia. rewrite Nat.sub_diag. intros H. apply (proj1 (grown_0 _ _ _)) in H.
    exists c. split; [exact H|]. eapply (walk_more d sp I E w (setting_laws d sp I E w Hset) 0); [|lia|reflexivity]. eapply cover_ins; eauto. apply H. }
  assert (Hbase : forall rims, (n_left nd <= N)%nat -> log_of ser T0 (rim_at cf w) (inner_at cf w) rims (Datatypes.S (N - n_left nd)) (n_log nd) ->
    (Datatypes.S (N - n_left nd) <= rims)%nat ->
    (n_pc nd = PStep -> rims = Datatypes.S (Datatypes.S (Nat.div (N - n_left nd) w) * w) /\
       global_step nanos (n_step nd) (n_nano nd) = (T0 + (N - n_left nd))%nat /\ (n_nano nd < nanos)%nat /\
       (forall c, In c (inner_at cf w) -> n_old nd c = ste (N - n_left nd) c) /\
       (Nat.modulo (N - n_left nd) w = O -> forall c, cells d part i c -> n_old nd c = ser (N - n_left nd) c \/ n_old nd c = ste (N - n_left nd) c)) ->
    node_matches ser ste nanos T0 N w (cells d part i) nd).
  { intros rims H1 H2 H3 H4. exists (rim_at cf w), (inner_at cf w), rims. split; [|split; [|split; [exact H1|split; [exact H2|split; [exact H3|exact H4]]]]].
    - intros c. rewrite Hr, Hk. apply (cs_own _ _ _ _ _ _ _ _ S).
    - apply nodup_app; [apply (cs_nodup _ _ _ _ _ _ _ _ S); lia..|]. intros c H5 H6. apply Hr in H5. apply Hk in H6. destruct H5 as [_ H5], H6 as [_ H6]. contradiction. }
  unfold node_inv in Inv. destruct (n_pc nd) as [|gh rem|gh rem] eqn:Hpc.
  - destruct Inv as (k & Hkw & Hval & Hclock & _ & _ & Hgood & Hgood0 & _ & _ & Hl & HN).
    assert (Ek : (N - n_left nd = m * w + k)%nat) by lia.
    assert (Ed : ((m * w + k) / w = m)%nat) by (rewrite Nat.add_comm, Nat.div_add, Nat.div_small; lia).
    assert (Em : ((m * w + k) mod w = k)%nat) by (rewrite Nat.add_comm, Nat.mod_add, Nat.mod_small; lia).
    apply (Hbase (Datatypes.S (Datatypes.S m * w))); rewrite ?Ek; [lia|now apply Hlog|nia|]. intros _. rewrite Ed, Em. split; [reflexivity|].
    destruct Hclock as [Hc1 Hc2]. split; [exact Hc1|]. split; [exact Hc2|]. split.
    + intros c Hc. rewrite ste_st. apply Hgood. apply Hinn; [lia|]. exact Hc.
    + intros -> c Hc. rewrite Nat.add_0_r, ste_st. apply Hgood0; [reflexivity|]. apply (cs_own _ _ _ _ _ _ _ _ S) in Hc. unfold inner, rim. rewrite Hr, Hk. tauto.
  - destruct Inv as ((Ht & _ & _ & _ & _ & _ & _ & _ & _ & Hl & HN) & _). assert (Ek : (N - n_left nd = m * w)%nat) by lia.
    apply (Hbase (Datatypes.S (m * w + gh_t gh))); rewrite ?Ek; [lia|now apply Hlog|lia|]. discriminate.
  - destruct Inv as ((Ht & _ & _ & _ & _ & _ & _ & _ & _ & Hl & HN) & _). assert (Ek : (N - n_left nd = m * w)%nat) by lia.
    apply (Hbase (Datatypes.S (m * w + Datatypes.S (gh_t gh)))); rewrite ?Ek; [lia|now apply Hlog|lia|]. discriminate.
Qed.

Theorem C21_parallel_equals_serial : exists cfs st0,
  configs sp part w n = Some cfs /\ sim_init nanos (make_steerers nanos start last sts) cfs dflt start N ini = Ok st0 /\
  forall es st, sim_run upd nb edge nanos (make_steerers nanos start last sts) cfs st0 es = Ok st ->
    length (s_nodes st) = n /\
    forall i nd, nth_error (s_nodes st) i = Some nd ->
      node_matches (fun k => fst (serial_after upd nb edge nanos start last sts area g0 k)) (serial_steered upd nb edge nanos start last sts area g0) nanos (start * nanos) N w (cells d part i) nd.
Proof.
  destruct run_facts as (cfs & st0 & Ec & Lc & E0 & Inv0 & Hspec & Hrun). fold steerers. exists cfs, st0. split; [exact Ec|]. split; [exact E0|].
  intros es st Hes. pose proof (proj1 (Hrun _ _ Inv0) es) as H. rewrite Hes in H. destruct H as (ms & Inv & _).
  rewrite (si_len _ _ _ _ _ _ _ _ _ Inv). split; [exact Lc|]. intros i nd Hnd.
  destruct (nth_error cfs i) as [cf|] eqn:Hcf.
  - destruct (Hspec i cf Hcf) as [Hi S]. eapply inv_matches; [exact S|exact Hi|]. eapply si_node; eauto.
  - apply nth_error_None in Hcf. assert (nth_error (s_nodes st) i <> None) by congruence. apply nth_error_Some in H.
    rewrite (si_len _ _ _ _ _ _ _ _ _ Inv) in H. lia.
Qed.

(** Whatever the order of events: no exceptions, no deadlock, no endless run. *)
Theorem C22_no_deadlock : exists cfs st0 bound,
  configs sp part w n = Some cfs /\ sim_init nanos (make_steerers nanos start last sts) cfs dflt start N ini = Ok st0 /\
  (forall es, sim_run upd nb edge nanos (make_steerers nanos start last sts) cfs st0 es <> Fail) /\
  (forall es st, sim_run upd nb edge nanos (make_steerers nanos start last sts) cfs st0 es = Ok st -> (length es <= bound)%nat) /\
  (forall es st, sim_run upd nb edge nanos (make_steerers nanos start last sts) cfs st0 es = Ok st -> ~ finished st ->
     exists e st', sim_step upd nb edge nanos (make_steerers nanos start last sts) cfs st e = Ok st').
Proof.
  destruct run_facts as (cfs & st0 & Ec & Lc & E0 & Inv0 & Hspec & Hrun). fold steerers. exists cfs, st0, (measure w cfs st0).
  split; [exact Ec|]. split; [exact E0|]. split; [|split].
  - intros es Hes. pose proof (proj1 (Hrun _ _ Inv0) es) as H. now rewrite Hes in H.
  - intros es st Hes. pose proof (proj1 (Hrun _ _ Inv0) es) as H. rewrite Hes in H. destruct H as (ms & _ & H). lia.
  - intros es st Hes Hf. pose proof (proj1 (Hrun _ _ Inv0) es) as H. rewrite Hes in H. destruct H as (ms & Inv & _).
    assert (Hex : exists i nd, nth_error (s_nodes st) i = Some nd /\ ~ done nd).
    { assert (Hall : forall l : list (node C), (exists i nd, nth_error l i = Some nd /\ ~ done nd) \/ (forall i nd, nth_error l i = Some nd -> done nd)).
      { clear. induction l as [|x l IH]; [right; intros [|i] nd H; discriminate|]. destruct (done_dec x) as [Hx|Hx].
        - destruct IH as [(i & nd & H1 & H2)|IH]; [left; exists (S i), nd; auto|].
          right. intros [|i] nd H; cbn in H; [injection H as <-; exact Hx|eauto].
        - left. exists O, x. auto. }
      destruct (Hall (s_nodes st)) as [H|H]; [exact H|]. exfalso. apply Hf. intros i nd Hnd. apply (H i nd Hnd). }
    destruct Hex as (i & nd & Hnd & Hd). apply (proj2 (Hrun _ _ Inv) i nd Hnd Hd).
Qed.

(** The results don't depend on the order of events. *)
Theorem C22_schedule_independent : exists cfs st0,
  configs sp part w n = Some cfs /\ sim_init nanos (make_steerers nanos start last sts) cfs dflt start N ini = Ok st0 /\
  forall es1 es2 st1 st2, sim_run upd nb edge nanos (make_steerers nanos start last sts) cfs st0 es1 = Ok st1 -> sim_run upd nb edge nanos (make_steerers nanos start last sts) cfs st0 es2 = Ok st2 ->
    finished st1 -> finished st2 ->
    forall i nd1 nd2, nth_error (s_nodes st1) i = Some nd1 -> nth_error (s_nodes st2) i = Some nd2 ->
      same_calls (filter (@lg_rim C) (n_log nd1)) (filter (@lg_rim C) (n_log nd2)) /\
      same_calls (filter (fun e => negb (lg_rim e)) (n_log nd1)) (filter (fun e => negb (lg_rim e)) (n_log nd2)).
Proof.
  destruct run_facts as (cfs & st0 & Ec & Lc & E0 & Inv0 & Hspec & Hrun). fold steerers. exists cfs, st0. split; [exact Ec|]. split; [exact E0|].
  intros es1 es2 st1 st2 H1 H2 F1 F2 i nd1 nd2 N1 N2.
  pose proof (proj1 (Hrun _ _ Inv0) es1) as R1. rewrite H1 in R1. destruct R1 as (ms1 & Inv1 & _).
  pose proof (proj1 (Hrun _ _ Inv0) es2) as R2. rewrite H2 in R2. destruct R2 as (ms2 & Inv2 & _).
  assert (Hcf : exists cf, nth_error cfs i = Some cf).
  { destruct (nth_error cfs i) eqn:Ei; eauto. apply nth_error_None in Ei. rewrite <- (si_len _ _ _ _ _ _ _ _ _ Inv1) in Ei. apply nth_error_None in Ei. congruence. }
  destruct Hcf as (cf & Hcf).
  pose proof (si_node _ _ _ _ _ _ _ _ _ Inv1 i cf nd1 Hcf N1) as I1. pose proof (si_node _ _ _ _ _ _ _ _ _ Inv2 i cf nd2 Hcf N2) as I2.
  destruct (F1 i nd1 N1) as [P1 L1]. destruct (F2 i nd2 N2) as [P2 L2].
  unfold node_inv in I1, I2. rewrite P1 in I1. rewrite P2 in I2.
  destruct I1 as (k1 & K1 & _ & _ & _ & _ & _ & _ & _ & _ & (A1 & B1 & V1 & _) & M1). destruct I2 as (k2 & K2 & _ & _ & _ & _ & _ & _ & _ & _ & (A2 & B2 & V2 & _) & M2).
  rewrite L1 in M1. rewrite L2 in M2. assert (Em : ms1 i = ms2 i) by nia. assert (Ek : k1 = k2) by nia. rewrite Em, Ek in *.
  assert (Hgen : forall (l1 l2 : list (logent C)), map lg_time l1 = map lg_time l2 -> (exists b, forall e, In e l1 \/ In e l2 -> lg_rim e = b) ->
    incl l1 (n_log nd1) -> incl l2 (n_log nd2) -> same_calls l1 l2).
  { clear - V1 V2. rewrite Forall_forall in V1, V2. induction l1 as [|a l1 IH]; intros [|b l2] Ht (bb & Hb) Hi1 Hi2; try discriminate; [constructor|].
    cbn [map] in Ht. injection Ht as Ht0 Ht. constructor.
    - assert (Hra : lg_rim a = bb) by (apply Hb; left; now left). assert (Hrb : lg_rim b = bb) by (apply Hb; right; now left).
      destruct (V1 a) as (Ra & ka & Ta & Ga); [apply Hi1; now left|]. destruct (V2 b) as (Rb & kb & Tb & Gb); [apply Hi2; now left|].
      rewrite Hra in Ra. rewrite Hrb in Rb. split; [exact Ht0|]. split; [congruence|]. split; [congruence|].
      assert (ka = kb) by lia. subst kb. intros c Hc. rewrite (Ga c Hc), (Gb c); [reflexivity|]. congruence.
    - apply IH; [exact Ht| | |].
      + exists bb. intros e He. apply Hb. destruct He; [left|right]; now right.
      + intros x Hx. apply Hi1. now right.
      + intros x Hx. apply Hi2. now right. }
  split; apply Hgen; try congruence; try (intros x Hx; apply filter_In in Hx; tauto).
  - exists true. intros e [He|He]; apply filter_In in He; tauto.
  - exists false. intros e [He|He]; apply filter_In in He; destruct (lg_rim e); intuition discriminate.
Qed.

End Props.

(** ** The SerialSimulator *)

Section Serial.
Context {C : Type} (upd : nat -> coord -> list C -> C) (nb : coord -> list (option coord)) (edge : C) (nanos start last : nat).
Context (I : coord -> Prop) (area : list coord) (g0 : grid C).
Hypothesis Harea : forall c, In c area <-> I c.
Hypothesis Hnodup : NoDup area.
Hypothesis Hclosed : forall c c', I c -> In (Some c') (nb c) -> I c'.
Hypothesis Hn : (1 <= nanos)%nat.

Definition alike (g g' : grid C) : Prop := forall c, I c -> g c = g' c.

Lemma input_spec e s : forall (sts : list (nat * @action C)) g c, I c ->
  serial_input (make_steerers nanos start last sts) area e s g c =
  fold_left (fun x '(p, f) => if match e with IoStep => Nat.eqb (Nat.modulo s p) 0 | _ => true end then f s e c x else x) sts (g c).
Proof.
  unfold serial_input. induction sts as [|[p f] sts IH]; intros g c Hc; cbn [make_steerers map fold_left]; [reflexivity|].
  fold (make_steerers nanos start last sts). rewrite IH by exact Hc. f_equal. cbn [ad_period].
  destruct (match e with IoStep => _ | _ => _ end); [|reflexivity]. apply apply_region_spec; [exact Hnodup|now apply Harea].
Qed.

Lemma nano_alike i g g' h h' : alike g g' -> alike (fst (serial_nano upd nb edge area (g, h) i)) (fst (serial_nano upd nb edge area (g', h') i)).
Proof.
  intros H c Hc. cbn [serial_nano fst]. apply Harea in Hc. rewrite !(proj1 (update_region_spec _ _ _ _ _ _ _) c Hc).
  apply new_cell_ext. intros c' Hc'. apply H. apply (Hclosed c); [now apply Harea|exact Hc'].
Qed.

Context (sts : list (nat * @action C)).
Hypothesis Halike : steers_alike start last sts.

(** [SerialSimulator] performs [nanos] nano steps per step. *)
Lemma serial_run_after n : (start + n <= last)%nat ->
  alike (fst (serial_run upd nb edge nanos (make_steerers nanos start last sts) area start n g0))
        (fst (serial_after upd nb edge nanos start last sts area g0 (n * nanos))).
Proof.
  induction n as [|n IH]; intros Hl.
  - unfold serial_run. cbn [seq fold_left fst Nat.mul serial_after]. intros c Hc. rewrite input_spec by exact Hc. unfold steered.
    rewrite Nat.mod_mul, Nat.div_mul by lia. cbn [Nat.eqb andb]. rewrite (proj2 (Nat.leb_le start last)) by lia.
    destruct Halike as [->|[Hlt _]]; [reflexivity|]. unfold io_due, io_event. rewrite Nat.eqb_refl, (proj2 (Nat.eqb_neq start last)) by lia. reflexivity.
  - specialize (IH ltac:(lia)). unfold serial_run in *. rewrite seq_S, fold_left_app. cbn [fold_left].
    destruct (fold_left _ (seq start n) _) as [cur new]. cbn [fst] in IH. unfold serial_sstep. cbn [fst snd].
    set (cur1 := serial_input _ area IoStep (start + n) cur).
    set (k := (n * nanos)%nat) in *. destruct (serial_after upd nb edge nanos start last sts area g0 k) as [scur snew] eqn:Es. cbn [fst] in IH.
    assert (H1 : alike cur1 (steer_at nanos start last sts k scur)).
    { intros c Hc. unfold cur1. rewrite input_spec by exact Hc. rewrite (IH c Hc). destruct n as [|n'].
      - unfold k. cbn [Nat.mul steer_at]. rewrite Nat.add_0_r. destruct Halike as [->|[Hlt Ha]]; [reflexivity|].
        clear - Ha. generalize (scur c). induction Ha as [|[p f] sts Ha Has IHs]; intros x; cbn [fold_left]; [reflexivity|].
        replace (if Nat.eqb (Nat.modulo start p) 0 then f start IoStep c x else x) with x; [apply IHs|].
        destruct (Nat.eqb_spec (Nat.modulo start p) 0) as [E|E]; [|reflexivity]. destruct Ha as [Ha|Ha]; [contradiction|]. now rewrite Ha.
      - assert (Hk : exists k', k = S k') by (unfold k; destruct nanos; [lia|cbn; eauto]). destruct Hk as (k' & Hk).
        unfold steer_at. rewrite Hk, <- Hk. unfold steered.
        replace (start * nanos + k)%nat with ((start + S n') * nanos)%nat by (unfold k; lia). rewrite Nat.mod_mul, Nat.div_mul by lia. cbn [Nat.eqb andb].
        rewrite (proj2 (Nat.leb_le (start + S n') last)) by lia. unfold io_due, io_event.
        rewrite (proj2 (Nat.eqb_neq (start + S n') last)), (proj2 (Nat.eqb_neq (start + S n') start)) by lia. reflexivity. }
    unfold serial_step.
    assert (H : forall j, (S j <= nanos)%nat -> alike (fst (fold_left (serial_nano upd nb edge area) (seq 0 (S j)) (cur1, new)))
      (fst (serial_after upd nb edge nanos start last sts area g0 (k + S j)))).
    { induction j as [|j IHj]; intros Hj.
      - cbn [seq fold_left]. rewrite Nat.add_1_r. cbn [serial_after]. rewrite Es.
        replace (Nat.modulo k nanos) with O by (unfold k; now rewrite Nat.mod_mul by lia). now apply nano_alike.
      - specialize (IHj ltac:(lia)). rewrite seq_S, fold_left_app. cbn [fold_left Nat.add].
        destruct (fold_left _ (seq 0 (S j)) _) as [c1 n1]. cbn [fst] in IHj. rewrite Nat.add_succ_r. cbn [serial_after].
        destruct (serial_after upd nb edge nanos start last sts area g0 (k + S j)) as [c2 n2]. cbn [fst] in IHj.
        assert (Ej : Nat.modulo (k + S j) nanos = S j) by (unfold k; rewrite Nat.add_comm, Nat.mod_add, Nat.mod_small; lia).
        rewrite Ej. apply nano_alike. intros c Hc. rewrite (IHj c Hc). rewrite Nat.add_succ_r. cbn [steer_at]. unfold steered.
        replace (Nat.modulo (start * nanos + S (k + j)) nanos) with (S j); [reflexivity|].
        rewrite <- Nat.add_succ_r, Nat.add_comm, Nat.mod_add by lia. now rewrite Ej. }
    destruct nanos as [|m] eqn:En; [lia|]. specialize (H m ltac:(lia)). replace (S n * S m)%nat with (k + S m)%nat by (unfold k; lia). exact H.
Qed.

End Serial.

Lemma reads_closed d sp I E w nb : setting d sp I E w -> reads_within I E nb -> forall c c', I c -> In (Some c') (nb c) -> I c'.
Proof. intros Hs Hr c c' Hc Hin. eapply (sl_closed _ _ _ _ _ (setting_laws _ _ _ _ _ Hs)); [exact Hc|]. now apply Hr. Qed.

(** ** Regular grids *)

(** Stencils of radius 1 read within the Moore neighbourhood. *)
Lemma stencil_reads d dim t offs : length dim = S d -> length t = S d -> Forall (fun n => 0 < n) dim ->
  Forall (fun o => near (diagonal (S d) 1) o (diagonal (S d) 0)) offs ->
  reads_within (in_grid dim) (moore d dim t) (stencil_nb t dim offs).
Proof.
  intros Hd Ht Hp Ho c c' Hc Hin. unfold stencil_nb in Hin. apply in_map_iff in Hin. destruct Hin as (o & Hn & Hino).
  rewrite Forall_forall in Ho. specialize (Ho o Hino). destruct (out_of_bounds t (zadd c o) dim) eqn:Eb; [discriminate|].
  injection Hn as <-. split; [exact Hc|]. exists (zadd c o).
  assert (Hl : length c = S d) by (rewrite <- Hd; clear - Hc; revert c Hc; induction dim as [|n dim IH]; intros [|x c] H; cbn in *; try tauto; auto; f_equal; apply IH; tauto).
  assert (Hnear : near (diagonal (S d) 1) (zadd c o) c).
  { unfold diagonal in *. clear - Ho Hl. revert c o Hl Ho. generalize (S d). induction n as [|n IH]; intros [|x c] [|y o] Hl Ho; cbn in *; try discriminate; try tauto.
    destruct Ho as [H1 H2]. split; [lia|]. apply IH; auto. }
  split; [exact Hnear|]. apply normalize_edges_spec; auto; [congruence|].
  clear - Hnear Hc Hl Hd Hp. unfold diagonal in Hnear. remember (zadd c o) as z eqn:Ez. clear Ez. revert z dim c Hl Hd Hp Hc Hnear. generalize (S d).
  induction n as [|n IH]; intros [|y z] [|m dim] [|x c] Hl Hd Hp Hc Hnear; try discriminate; unfold in_grid in *; cbn [repeat near one_period inside map length] in *; try tauto.
  inversion Hp; subst. destruct Hnear as [Hx Hnear]. destruct Hc as [Hc0 Hc]. split; [lia|]. apply (IH z dim c); auto; lia.
Qed.

(** C21 for regular grids, stencils and all topologies. *)
Theorem C21_regular_grid {C} (upd : nat -> coord -> list C -> C) (edge dflt : C) nanos d dim t w offs n part area (g0 : grid C) ini start last N
    (sts : list (nat * @action C)) :
  length dim = S d -> length t = S d -> Forall (fun x => 0 < x) dim -> (1 <= w)%nat -> Forall (fun x => Z.of_nat w <= x) dim ->
  Forall (fun o => near (diagonal (S d) 1) o (diagonal (S d) 0)) offs ->
  exact_cover d n part (in_grid dim) -> (forall c, In c area <-> in_grid dim c) -> (1 <= nanos)%nat ->
  (start <= last)%nat -> Forall (fun s => (1 <= fst s)%nat) sts ->
  (forall i c, (i < n)%nat -> in_grid dim c -> ini i c = g0 c) ->
  let nb := stencil_nb t dim offs in
  let steerers := make_steerers nanos start last sts in
  exists cfs st0,
    configs (Regular dim t) part w n = Some cfs /\ sim_init nanos steerers cfs dflt start N ini = Ok st0 /\
    forall es st, sim_run upd nb edge nanos steerers cfs st0 es = Ok st ->
      length (s_nodes st) = n /\
      forall i nd, nth_error (s_nodes st) i = Some nd ->
        node_matches (fun k => fst (serial_after upd nb edge nanos start last sts area g0 k)) (serial_steered upd nb edge nanos start last sts area g0)
          nanos (start * nanos) N w (cells d part i) nd.
Proof.
  intros Hd Ht Hp Hw Hwd Ho Hcov Harea Hn Hl Hsts Hini nb steerers.
  assert (Hs : setting d (Regular dim t) (in_grid dim) (moore d dim t) w) by (constructor; auto).
  eapply C21_parallel_equals_serial; eauto.
  - left. now apply moore_sym.
  - now apply stencil_reads.
  - intros i c Hi Hg. apply Hini; auto. eapply (grown_inside d _ _ _ w (setting_laws _ _ _ _ _ Hs)); eauto. eapply cover_ins; eauto.
Qed.

(** After [steps] steps in full, the nodes' grids at a synchronisation point
    are the SerialSimulator's grid; steerers may have changed some cells. *)
Theorem C21_final_grid {C} (upd : nat -> coord -> list C -> C) nb (edge dflt : C) nanos d sp I E w n part area (g0 : grid C) ini start last steps
    (sts : list (nat * @action C)) :
  setting d sp I E w -> symmetric E \/ (w <= 2)%nat /\ sts = [] -> exact_cover d n part I -> reads_within I E nb ->
  (forall c, In c area <-> I c) -> NoDup area -> (1 <= nanos)%nat ->
  (start + steps <= last)%nat -> Forall (fun s => (1 <= fst s)%nat) sts -> steers_alike start last sts ->
  (forall i c, (i < n)%nat -> grown E w (cells d part i) c -> ini i c = g0 c) ->
  Nat.modulo (steps * nanos) w = O ->
  let steerers := make_steerers nanos start last sts in
  exists cfs st0,
    configs sp part w n = Some cfs /\ sim_init nanos steerers cfs dflt start (steps * nanos) ini = Ok st0 /\
    forall es st, sim_run upd nb edge nanos steerers cfs st0 es = Ok st -> finished st ->
      forall i nd c, nth_error (s_nodes st) i = Some nd -> cells d part i c ->
        let x := fst (serial_run upd nb edge nanos steerers area start steps g0) c in
        (n_old nd c = x \/ n_old nd c = steered nanos start last sts ((start + steps) * nanos) c x) /\
        (sts = [] -> n_old nd c = x) /\
        n_step nd = (start + steps)%nat /\ n_nano nd = O.
Proof.
  intros Hs Hsym Hcov Hr Ha Hna Hn Hl Hsts Halike Hini Hsync steerers.
  destruct (C21_parallel_equals_serial upd nb edge dflt nanos d sp I E w n part area g0 ini start last (steps * nanos) sts) as (cfs & st0 & E1 & E2 & H); auto; [lia|].
  exists cfs, st0. split; [exact E1|]. split; [exact E2|]. intros es st Hrun Hfin i nd c Hnd Hc.
  destruct (H es st Hrun) as [Hlen Hm]. destruct (Hm i nd Hnd) as (rim & ker & rims & _ & _ & _ & _ & _ & Hp).
  destruct (Hfin i nd Hnd) as [Hpc Hleft]. rewrite Hleft, Nat.sub_0_r in Hp. destruct (Hp Hpc) as (_ & Ht & Hlt & _ & Hv).
  specialize (Hv Hsync c Hc).
  assert (Hi : (i < n)%nat) by (rewrite <- Hlen; apply nth_error_Some; congruence).
  assert (HIc : I c) by (eapply cover_ins; eauto).
  pose proof (serial_run_after upd nb edge nanos start last I area g0 Ha Hna (reads_closed d sp I E w nb Hs Hr) Hn sts Halike steps Hl c HIc) as Hx.
  cbn zeta. fold steerers in Hx. rewrite Hx.
  assert (Hst : serial_steered upd nb edge nanos start last sts area g0 (steps * nanos) c = fst (serial_after upd nb edge nanos start last sts area g0 (steps * nanos)) c \/
    serial_steered upd nb edge nanos start last sts area g0 (steps * nanos) c =
    steered nanos start last sts ((start + steps) * nanos) c (fst (serial_after upd nb edge nanos start last sts area g0 (steps * nanos)) c)).
  { unfold serial_steered, steer_at. destruct (steps * nanos)%nat eqn:Ek; [left; reflexivity|right].
    replace ((start + steps) * nanos)%nat with (start * nanos + S n0)%nat by lia. reflexivity. }
  split; [|split].
  - destruct Hv as [Hv|Hv]; [auto|]. rewrite Hv. exact Hst.
  - intros Hnil. destruct Hv as [Hv|Hv]; [exact Hv|]. rewrite Hv. destruct Hst as [Hst|Hst]; [exact Hst|]. rewrite Hst, Hnil. unfold steered. cbn [fold_left].
    now destruct (_ && _).
  - unfold global_step in Ht.
    assert (Hq : n_step nd = (start + steps)%nat) by (destruct (Nat.lt_trichotomy (n_step nd) (start + steps)) as [Hq|[Hq|Hq]]; [nia|exact Hq|nia]).
    split; [exact Hq|]. rewrite Hq in Ht. nia.
Qed.

Print Assumptions C21_parallel_equals_serial.
Print Assumptions C21_regular_grid.
Print Assumptions C21_final_grid.
Print Assumptions C22_no_deadlock.
Print Assumptions C22_schedule_independent.

(** ** Examples *)

Definition ex_upd (nano : nat) (c : coord) (l : list Z) : Z := fold_left (fun a b => Z.modulo (3 * a + b + Z.of_nat nano) 1009) l (last c 0 + 1).
Definition ex_offs : list coord := [[0; 0]; [-1; 0]; [1; 1]; [0; -1]].
Definition ex_area : list coord := flat_map (fun y => map (fun x => [Z.of_nat y; Z.of_nat x]) (seq 0 5)) (seq 0 6).
Definition ex_ini : grid Z := fun c => 100 * hd 0 c + last c 0.

(** The grid of 5 x 6 cells from above with ghost zones of width 2 and two nano
    steps per step. *)
Example C21_hypotheses :
  Forall (fun o => near (diagonal 2 1) o (diagonal 2 0)) ex_offs /\
  exact_cover 1 3 ex_part (in_grid [6; 5]) /\ (forall c, In c ex_area <-> in_grid [6; 5] c).
Proof.
  split; [repeat constructor; cbn; lia|]. split; [apply C18_C19_C20_hypotheses|].
  intros c. unfold ex_area. rewrite in_flat_map. split.
  - intros (y & Hy & Hc). apply in_map_iff in Hc. destruct Hc as (x & <- & Hx). apply in_seq in Hx, Hy. cbn. lia.
  - destruct c as [|y [|x [|? ?]]]; unfold in_grid; cbn [inside map]; try tauto. intros (Hy & Hx & _). exists (Z.to_nat y). split; [apply in_seq; lia|].
    apply in_map_iff. exists (Z.to_nat x). split; [rewrite !Z2Nat.id by lia; reflexivity|apply in_seq; lia].
Qed.

Definition ex_nb := stencil_nb [false; true] [6; 5] ex_offs.
Definition ex_cells : list coord := [[0; 0]; [2; 4]; [3; 1]; [3; 2]; [5; 4]].

(** The run in which all that is possible happens in turns. *)
Definition ex_run {C} upd nb (edge dflt : C) nanos sts sp part w n start N ini rounds :=
  match configs sp part w n with
  | Some cfs =>
      match sim_init nanos sts cfs dflt start N ini with
      | Ok st0 =>
          match sim_run upd nb edge nanos sts cfs st0 (snd (sim_rounds upd nb edge nanos sts cfs rounds (all_events n) st0)) with
          | Ok st => Some st
          | _ => None
          end
      | _ => None
      end
  | None => None
  end.

(** All 6 nano steps have been performed; the values of selected cells, which
    belong to nodes 0, 0, 1, 1 and 2. *)
Example C21_C22_example :
  option_map (fun st => (map n_pc (s_nodes st), map n_left (s_nodes st), map n_step (s_nodes st),
    map (fun '(i, c) => option_map (fun nd => n_old nd c) (nth_error (s_nodes st) i))
      [(0%nat, [0; 0]); (0%nat, [2; 4]); (1%nat, [3; 1]); (1%nat, [3; 2]); (2%nat, [5; 4])]))
    (ex_run ex_upd ex_nb (-7) 0 2 [] ex_grid ex_part 2 3 4 6 (fun _ => ex_ini) 60) =
  Some ([PStep; PStep; PStep], [0; 0; 0]%nat, [7; 7; 7]%nat, [Some 419; Some 714; Some 500; Some 900; Some 577]) /\
  map (fst (serial_run ex_upd ex_nb (-7) 2 [] ex_area 4 3 ex_ini)) ex_cells = [419; 714; 500; 900; 577].
Proof. split; vm_compute; reflexivity. Qed.

(** The same with two steerers: one is due at steps 4, 6 and 7, the other one at
    steps 4, 5 and 7. *)
Definition ex_sts : list (nat * @action Z) :=
  [(2%nat, fun s e c x => match e with IoStep => if Nat.eqb s 4 then x else x + hd 0 c | _ => 2 * x end);
   (5%nat, fun s e c x => Z.modulo (x * Z.of_nat s) 1013)].

Example C21_steered_hypotheses : Forall (fun s => (1 <= fst s)%nat) ex_sts /\ steers_alike 4 7 ex_sts.
Proof.
  split; [repeat constructor; cbn; lia|]. right. split; [lia|]. constructor; [right; reflexivity|]. constructor; [left; discriminate|constructor].
Qed.

(** What writers get to see of the cells [cs] at nano step [t]. *)
Definition ex_seen {C} (t : nat) (cs : list coord) (st : sim C) : list (coord * C) :=
  flat_map (fun nd => flat_map (fun e => if Nat.eqb (lg_time e) t then map (fun c => (c, lg_grid e c))
    (filter (fun c => existsb (fun y => if list_eq_dec Z.eq_dec c y then true else false) cs) (lg_region e)) else []) (n_log nd)) (s_nodes st).

Example C21_steered_example :
  let sts := make_steerers 2 4 7 ex_sts in
  option_map (fun st => (map n_left (s_nodes st), ex_seen 14 ex_cells st))
    (ex_run ex_upd ex_nb (-7) 0 2 sts ex_grid ex_part 2 3 4 6 (fun _ => ex_ini) 60) =
  Some ([0; 0; 0]%nat, [([2; 4], 280); ([0; 0], 174); ([3; 1], 862); ([3; 2], 315); ([5; 4], 238)]) /\
  map (fst (serial_run ex_upd ex_nb (-7) 2 sts ex_area 4 3 ex_ini)) ex_cells = [174; 280; 862; 315; 238].
Proof. cbn zeta. split; vm_compute; reflexivity. Qed.

(** ** Directed graphs *)

(** Ghost zones of width 3 and a graph with edges 0 -> 2, 1 -> 2, 3 -> 1, the
    nodes of which are distributed as {0, 1} and {2, 3}. Computing the rim, node
    0 overwrites its copy of cell 2, which its kernel reads afterwards. *)
Definition dg_adj (x : Z) : list Z := if x =? 0 then [2] else if x =? 1 then [2] else if x =? 3 then [1] else [].
Definition dg_radj (x : Z) : list Z := filter (fun y => existsb (Z.eqb x) (dg_adj y)) [0; 1; 2; 3].
Definition dg_graph : space := Unstructured (fun _ => dg_adj) (fun _ => dg_radj).
Definition dg_part : nat -> option indices := unstructured_striping_region 0 0 [2; 2].
Definition dg_nb (c : coord) : list (option coord) := match c with [x] => map (fun y => Some [y]) (x :: dg_adj x) | _ => [] end.
Definition dg_area : list coord := [[0]; [1]; [2]; [3]].

Lemma dg_setting w : (1 <= w)%nat -> setting 0 dg_graph (in_grid [4]) (linked dg_adj) w.
Proof.
  intros Hw. constructor; [exact Hw| |reflexivity| |right; reflexivity].
  - intros x y Hx. unfold dg_adj. destruct (x =? 0), (x =? 1), (x =? 3); cbn [In]; lia.
  - intros _ x _ y. unfold dg_radj. rewrite filter_In, existsb_exists. split.
    + intros (Hk & z & Hz & Hxz). apply Z.eqb_eq in Hxz. subst z. split; [cbn in Hk; lia|exact Hz].
    + intros [Hy Hin]. split; [cbn; lia|]. exists x. split; [exact Hin|apply Z.eqb_refl].
Qed.

Lemma dg_reads : reads_within (in_grid [4]) (linked dg_adj) dg_nb.
Proof.
  intros c c' Hc Hin. destruct c as [|x [|? ?]]; cbn [dg_nb In] in Hin; try tauto.
  apply in_map_iff in Hin. destruct Hin as (y & Hy & Hin). injection Hy as <-. exists x, y. split; [reflexivity|]. split; [reflexivity|]. exact Hin.
Qed.

(** What a node has told its writers at the [k]-th call. *)
Definition ex_call {C} upd nb (edge dflt : C) sp part w n N (g0 : grid C) rounds k (c : coord) : option (list coord * nat * C) :=
  obind (ex_run upd nb edge dflt 1 [] sp part w n 0 N (fun _ => g0) rounds) (fun st =>
  obind (nth_error (s_nodes st) 0) (fun nd => option_map (fun e => (lg_region e, lg_time e, lg_grid e c)) (nth_error (n_log nd) k))).

Lemma ex_call_run {C} upd nb (edge dflt : C) sp part w n N (g0 : grid C) rounds k c reg t v :
  ex_call upd nb edge dflt sp part w n N g0 rounds k c = Some (reg, t, v) ->
  exists cfs st0 es st nd e, configs sp part w n = Some cfs /\ sim_init 1 [] cfs dflt 0 N (fun _ => g0) = Ok st0 /\
    sim_run upd nb edge 1 [] cfs st0 es = Ok st /\ nth_error (s_nodes st) 0 = Some nd /\
    In e (n_log nd) /\ lg_region e = reg /\ lg_time e = t /\ lg_grid e c = v.
Proof.
  unfold ex_call, ex_run. destruct (configs sp part w n) as [cfs|]; [|discriminate].
  destruct (sim_init 1 [] cfs dflt 0 N (fun _ => g0)) as [st0| |] eqn:E3; try discriminate.
  destruct (sim_run _ _ _ _ _ cfs st0 _) as [st| |] eqn:E4; try discriminate. cbn [obind].
  destruct (nth_error (s_nodes st) 0) as [nd|] eqn:E5; try discriminate. cbn [obind].
  destruct (nth_error (n_log nd) k) as [e|] eqn:E6; try discriminate. cbn [option_map]. intros E2. injection E2 as Hr Ht Hv.
  exists cfs, st0. eexists. exists st, nd, e. split; [reflexivity|]. split; [exact E3|]. split; [exact E4|]. split; [exact E5|].
  split; [eapply nth_error_In; eauto|]. auto.
Qed.

Theorem C63_directed_graph_refuted : exists C (upd : nat -> coord -> list C -> C) nb (edge dflt : C) sp I E w n part area (g0 : grid C) cfs st0 es st nd e c,
  setting 0 sp I E w /\ exact_cover 0 n part I /\ reads_within I E nb /\ (forall c, In c area <-> I c) /\
  configs sp part w n = Some cfs /\ sim_init 1 [] cfs dflt 0 6 (fun _ => g0) = Ok st0 /\
  sim_run upd nb edge 1 [] cfs st0 es = Ok st /\ nth_error (s_nodes st) 0 = Some nd /\
  In e (n_log nd) /\ In c (lg_region e) /\ lg_grid e c <> fst (serial_after upd nb edge 1 0 6 [] area g0 (lg_time e)) c.
Proof.
  exists Z, ex_upd, dg_nb, (-1), 0, dg_graph, (in_grid [4]), (linked dg_adj), 3%nat, 2%nat, dg_part, dg_area, (fun c => 10 * hd 0 c + 7).
  assert (H1 : setting 0 dg_graph (in_grid [4]) (linked dg_adj) 3) by (apply dg_setting; lia).
  assert (H2 : exact_cover 0 2 dg_part (in_grid [4])) by (apply (C12_unstructured_striping 0 0 [2; 2]); repeat constructor; lia).
  assert (H3 : forall c, In c dg_area <-> in_grid [4] c).
  { intros c'. unfold dg_area, in_grid. destruct c' as [|x [|? ?]]; cbn [inside map In]; split; try tauto.
    - intros [H|[H|[H|[H|[]]]]]; discriminate.
    - intros [H|[H|[H|[H|[]]]]]; injection H as <-; lia.
    - intros [H _]. assert (x = 0 \/ x = 1 \/ x = 2 \/ x = 3) as H4 by lia. destruct H4 as [H4|[H4|[H4|H4]]]; rewrite H4; auto.
    - intros [H|[H|[H|[H|[]]]]]; discriminate. }
  destruct (ex_call_run ex_upd dg_nb (-1) 0 dg_graph dg_part 3 2 6 (fun c => 10 * hd 0 c + 7) 40 5 [0] [[0]] 1 75)
    as (cfs & st0 & es & st & nd & e & R1 & R2 & R3 & R4 & R5 & Hr & Ht & Hv); [vm_compute; reflexivity|].
  exists cfs, st0, es, st, nd, e, [0].
  split; [exact H1|]. split; [exact H2|]. split; [exact dg_reads|]. split; [exact H3|].
  split; [exact R1|]. split; [exact R2|]. split; [exact R3|]. split; [exact R4|]. split; [exact R5|]. rewrite Hr, Ht, Hv. split; [left; reflexivity|]. clear. vm_compute. discriminate.
Qed.
Print Assumptions C63_directed_graph_refuted.

(** ** Between synchronisation points *)

Lemma ex_run_run {C} upd nb (edge dflt : C) nanos sts sp part w n start N (g0 : grid C) rounds cs vs :
  obind (ex_run upd nb edge dflt nanos sts sp part w n start N (fun _ => g0) rounds) (fun st =>
    if forallb (fun nd => match n_pc nd with PStep => Nat.eqb (n_left nd) 0 | _ => false end) (s_nodes st)
    then option_map (fun nd => map (n_old nd) cs) (nth_error (s_nodes st) 0) else None) = Some vs ->
  exists cfs st0 es st nd, configs sp part w n = Some cfs /\ sim_init nanos sts cfs dflt start N (fun _ => g0) = Ok st0 /\
    sim_run upd nb edge nanos sts cfs st0 es = Ok st /\ finished st /\ nth_error (s_nodes st) 0 = Some nd /\ map (n_old nd) cs = vs.
Proof.
  unfold ex_run. destruct (configs sp part w n) as [cfs|]; [|discriminate].
  destruct (sim_init nanos sts cfs dflt start N (fun _ => g0)) as [st0| |] eqn:E3; try discriminate.
  destruct (sim_run _ _ _ _ _ cfs st0 _) as [st| |] eqn:E4; try discriminate. cbn [obind].
  destruct (forallb _ (s_nodes st)) eqn:Ef; [|discriminate].
  destruct (nth_error (s_nodes st) 0) as [nd|] eqn:E5; try discriminate. cbn [option_map]. intros E2. injection E2 as Hv.
  exists cfs, st0. eexists. exists st, nd. split; [reflexivity|]. split; [exact E3|]. split; [exact E4|]. split; [|auto].
  intros i nd' Hnd'. rewrite forallb_forall in Ef. specialize (Ef nd' (nth_error_In _ _ Hnd')).
  destruct (n_pc nd'); try discriminate. split; [reflexivity|now apply Nat.eqb_eq].
Qed.

(** With ghost zones of width 3, after 2 steps cell (0, 0) of node 0 still has
    its initial value in the grid which the node offers. *)
Theorem C64_grid_between_syncs_refuted : exists C (upd : nat -> coord -> list C -> C) (edge dflt : C) dim t offs w n part area (g0 : grid C) N cfs st0 es st nd c,
  length dim = 2%nat /\ length t = 2%nat /\ Forall (fun x => 0 < x) dim /\ Forall (fun x => Z.of_nat w <= x) dim /\
  Forall (fun o => near (diagonal 2 1) o (diagonal 2 0)) offs /\
  exact_cover 1 n part (in_grid dim) /\ (forall c, In c area <-> in_grid dim c) /\
  configs (Regular dim t) part w n = Some cfs /\ sim_init 1 [] cfs dflt 0 N (fun _ => g0) = Ok st0 /\
  sim_run upd (stencil_nb t dim offs) edge 1 [] cfs st0 es = Ok st /\ finished st /\ nth_error (s_nodes st) 0 = Some nd /\
  cells 1 part 0 c /\ n_old nd c <> fst (serial_after upd (stencil_nb t dim offs) edge 1 0 N [] area g0 N) c.
Proof.
  exists Z, ex_upd, (-7), 0, [6; 5], [false; true], ex_offs, 3%nat, 3%nat, ex_part, ex_area, ex_ini, 2%nat.
  destruct C21_hypotheses as (H1 & H2 & H3).
  assert (H4 : cells 1 ex_part 0 [0; 0]) by (eexists; split; [vm_compute; reflexivity|split; vm_compute; reflexivity]).
  assert (H5 : Forall (fun x => 0 < x) [6; 5]) by (repeat constructor).
  assert (H6 : Forall (fun x => Z.of_nat 3 <= x) [6; 5]) by (repeat constructor; lia).
  destruct (ex_run_run ex_upd ex_nb (-7) 0 1 [] ex_grid ex_part 3 3 0 2 ex_ini 60 [[0; 0]] [0]) as (cfs & st0 & es & st & nd & R1 & R2 & R3 & R4 & R5 & Hv); [vm_compute; reflexivity|].
  exists cfs, st0, es, st, nd, [0; 0]. split; [reflexivity|]. split; [reflexivity|]. split; [exact H5|]. split; [exact H6|].
  split; [exact H1|]. split; [exact H2|]. split; [exact H3|]. split; [exact R1|]. split; [exact R2|]. split; [exact R3|]. split; [exact R4|].
  split; [exact R5|]. split; [exact H4|]. cbn [map] in Hv. injection Hv as Hv. rewrite Hv. clear. vm_compute. discriminate.
Qed.
Print Assumptions C64_grid_between_syncs_refuted.

(** ** Grids after steering *)

(** With the steerers of the example above, after the last step: in the grid
    which node 0 offers, cell (0, 0) has been steered, cell (0, 3) has not. *)
Theorem C93_steered_grid_refuted : exists C (upd : nat -> coord -> list C -> C) (edge dflt : C) nanos dim t offs w n part area (g0 : grid C) start last N sts
    cfs st0 es st nd c c',
  length dim = 2%nat /\ length t = 2%nat /\ Forall (fun x => 0 < x) dim /\ Forall (fun x => Z.of_nat w <= x) dim /\
  Forall (fun o => near (diagonal 2 1) o (diagonal 2 0)) offs /\
  exact_cover 1 n part (in_grid dim) /\ (forall c, In c area <-> in_grid dim c) /\
  Forall (fun s => (1 <= fst s)%nat) sts /\ N = ((last - start) * nanos)%nat /\ Nat.modulo N w = O /\
  let steerers := make_steerers nanos start last sts in
  let nb := stencil_nb t dim offs in
  let ser := fst (serial_after upd nb edge nanos start last sts area g0 N) in
  let ste := serial_steered upd nb edge nanos start last sts area g0 N in
  configs (Regular dim t) part w n = Some cfs /\ sim_init nanos steerers cfs dflt start N (fun _ => g0) = Ok st0 /\
  sim_run upd nb edge nanos steerers cfs st0 es = Ok st /\ finished st /\ nth_error (s_nodes st) 0 = Some nd /\
  cells 1 part 0 c /\ n_old nd c = ste c /\ ste c <> ser c /\
  cells 1 part 0 c' /\ n_old nd c' = ser c' /\ ser c' <> ste c'.
Proof.
  exists Z, ex_upd, (-7), 0, 2%nat, [6; 5], [false; true], ex_offs, 2%nat, 3%nat, ex_part, ex_area, ex_ini, 4%nat, 7%nat, 6%nat, ex_sts.
  destruct C21_hypotheses as (H1 & H2 & H3). destruct C21_steered_hypotheses as (H7 & _).
  assert (H4 : cells 1 ex_part 0 [0; 0]) by (eexists; split; [vm_compute; reflexivity|split; vm_compute; reflexivity]).
  assert (H4' : cells 1 ex_part 0 [3; 0]) by (eexists; split; [vm_compute; reflexivity|split; vm_compute; reflexivity]).
  assert (H5 : Forall (fun x => 0 < x) [6; 5]) by (repeat constructor).
  assert (H6 : Forall (fun x => Z.of_nat 2 <= x) [6; 5]) by (repeat constructor; lia).
  destruct (ex_run_run ex_upd ex_nb (-7) 0 2 (make_steerers 2 4 7 ex_sts) ex_grid ex_part 2 3 4 6 ex_ini 60 [[0; 0]; [3; 0]] [410; 934])
    as (cfs & st0 & es & st & nd & R1 & R2 & R3 & R4 & R5 & Hv); [vm_compute; reflexivity|].
  exists cfs, st0, es, st, nd, [0; 0], [3; 0]. split; [reflexivity|]. split; [reflexivity|]. split; [exact H5|]. split; [exact H6|].
  split; [exact H1|]. split; [exact H2|]. split; [exact H3|]. split; [exact H7|]. split; [reflexivity|]. split; [reflexivity|]. cbn zeta.
  split; [exact R1|]. split; [exact R2|]. split; [exact R3|]. split; [exact R4|]. split; [exact R5|].
  cbn [map] in Hv. injection Hv as Hv1 Hv2. rewrite Hv1, Hv2. split; [exact H4|].
  split; [clear; vm_compute; reflexivity|]. split; [clear; vm_compute; discriminate|]. split; [exact H4'|].
  split; [clear; vm_compute; reflexivity|clear; vm_compute; discriminate].
Qed.
Print Assumptions C93_steered_grid_refuted.
