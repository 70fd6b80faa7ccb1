(** C24, C68: StripingSimulator. *)
From Verif Require Import Base ListFacts CoordModel CoordSpec RegionSpec RegionModel RegionOpsModel CoordFacts
  PartitionSpec PartitionManagerModel PartitionManagerSpec PartitionManagerFacts PartitionManagerProps HaloSpec HaloFacts
  PatchModel PatchFacts AdapterModel StepperModel StepperSpec StepperFacts StepperProps StripesModel StripesSpec StripesFacts StripesConfig.

(** ** The initial partition *)

Lemma stripe_partition_cuts n height : (1 <= n)%nat -> 0 <= height -> cuts n height (stripe_partition height n).
Proof.
  intros Hn Hh. unfold stripe_partition.
  assert (Hl : length (map (fun i => height * Z.of_nat i / Z.of_nat n) (seq 0 n)) = n) by now rewrite map_length, seq_length.
  assert (Hnth : forall i, (i < n)%nat -> nth i (map (fun i => height * Z.of_nat i / Z.of_nat n) (seq 0 n) ++ [height]) 0 = height * Z.of_nat i / Z.of_nat n).
  { intros i Hi. rewrite app_nth1 by lia.
    apply nth_error_nth. rewrite nth_error_map, (nth_error_nth' (seq 0 n) O) by (rewrite seq_length; lia). rewrite seq_nth by lia. reflexivity. }
  assert (Hlast : nth n (map (fun i => height * Z.of_nat i / Z.of_nat n) (seq 0 n) ++ [height]) 0 = height).
  { rewrite app_nth2 by lia. rewrite Hl, Nat.sub_diag. reflexivity. }
  split; [rewrite app_length, Hl; cbn; lia|]. split; [rewrite Hnth by lia; rewrite Z.mul_0_r; apply Z.div_0_l; lia|].
  split; [exact Hlast|]. intros i Hi. rewrite Hnth by exact Hi. destruct (Nat.eq_dec (S i) n) as [He|He].
  - rewrite He, Hlast. apply Z.div_le_upper_bound; nia.
  - rewrite Hnth by lia. apply Z.div_le_mono; nia.
Qed.

(** Every cell belongs to one stripe. *)
Lemma cuts_exact d dim n parts c : length dim = S d -> cuts n (hd 0 dim) parts -> in_grid dim c ->
  exists! i, (i < n)%nat /\ stripe_cells dim parts i c.
Proof.
  intros Hd Hc Hg. destruct (stripe_own d dim n Hd parts Hc c Hg) as (i & Hi & Ho). exists i. split; [auto|]. intros j [Hj Hoj].
  destruct Hc as (_ & _ & _ & Hm). destruct Ho as [_ Ho], Hoj as [_ Hoj].
  assert (Hmono : forall k a, (a + k <= n)%nat -> nth a parts 0 <= nth (a + k) parts 0).
  { induction k as [|k IH]; intros a Ha; [rewrite Nat.add_0_r; lia|]. specialize (IH a ltac:(lia)). rewrite Nat.add_succ_r. specialize (Hm (a + k)%nat ltac:(lia)). lia. }
  destruct (Nat.lt_trichotomy i j) as [H|[H|H]]; [exfalso|exact H|exfalso].
  - pose proof (Hmono (j - S i)%nat (S i) ltac:(lia)) as Hx. replace (S i + (j - S i))%nat with j in Hx by lia. lia.
  - pose proof (Hmono (i - S j)%nat (S j) ltac:(lia)) as Hx. replace (S j + (i - S j))%nat with i in Hx by lia. lia.
Qed.

Lemma sum_set_nth {A} (f : A -> nat) : forall l i x y, nth_error l i = Some x ->
  (list_sum (map f (set_nth l i y)) + f x = list_sum (map f l) + f y)%nat.
Proof.
  induction l as [|a l IH]; intros [|i] x y H; try discriminate; cbn [set_nth map list_sum fold_right nth_error] in *.
  - injection H as <-. unfold list_sum. cbn. lia.
  - specialize (IH i x y H). unfold list_sum in *. cbn in *. lia.
Qed.

Lemma sum_bound {A} (f : A -> nat) b : forall l, (forall x, In x l -> (f x <= b)%nat) -> (list_sum (map f l) <= length l * b)%nat.
Proof.
  unfold list_sum. induction l as [|a l IH]; intros H; cbn [map fold_right length]; [lia|]. specialize (IH (fun x Hx => H x (or_intror Hx))).
  specialize (H a (or_introl eq_refl)). cbn. lia.
Qed.

Lemma min_exists {A} (f : A -> nat) : forall l : list A, l <> [] -> exists i x, nth_error l i = Some x /\ forall j y, nth_error l j = Some y -> (f x <= f y)%nat.
Proof.
  induction l as [|a l IH]; [contradiction|]. intros _. destruct l as [|b l].
  - exists O, a. split; [reflexivity|]. intros [|[|j]] y H; cbn in H; try discriminate. injection H as <-. lia.
  - destruct IH as (i & x & Hx & Hmin); [discriminate|]. destruct (Nat.le_gt_cases (f a) (f x)) as [Hle|Hgt].
    + exists O, a. split; [reflexivity|]. intros [|j] y H; cbn [nth_error] in H; [injection H as <-; lia|]. specialize (Hmin j y H). lia.
    + exists (S i), x. split; [exact Hx|]. intros [|j] y H; cbn [nth_error] in H; [injection H as <-; lia|]. now apply (Hmin j y).
Qed.

Section Props.
Context {C : Type} (upd : nat -> coord -> list C -> C) (nb : coord -> list (option coord)) (edge : C) (nanos : nat) (steer : nat -> coord -> C -> C).
Context (d : nat) (sp : space) (dim : coord) (E : neigh) (n period : nat) (area : list coord) (start max_steps : nat) (ini : grid C).

Hypothesis Hset : setting d sp (in_grid dim) E 1.
Hypothesis Hdim : length dim = S d.
Hypothesis Hpos : Forall (fun x => 0 < x) dim.
Hypothesis Hreads : reads_within (in_grid dim) E nb.
Hypothesis Harea : NoDup area /\ forall c, In c area <-> in_grid dim c.
Hypothesis Hn : (1 <= n)%nat.
Hypothesis Hnanos : (1 <= nanos)%nat.
Hypothesis Hperiod : (1 <= period)%nat.
Hypothesis Hstart : (start <= max_steps)%nat.

Let ser k := fst (steered_after upd nb edge nanos steer area start ini k).

Notation Inv := (inv nb nanos dim n period start max_steps ser).
Notation position := (pos nanos start).
Notation step := (stripes_step upd nb edge nanos steer sp dim n period max_steps ini).
Notation run := (stripes_run upd nb edge nanos steer sp dim n period max_steps ini).
Notation total := ((max_steps - start) * nanos)%nat.

Lemma ser_step k c : in_grid dim c -> ser (S k) c = new_cell upd nb edge (Nat.modulo k nanos) (steered nanos steer start ser k) c.
Proof using Harea Hreads Hset.
  intros Hc. destruct Harea as [Hnd Ha]. unfold ser at 1. cbn [steered_after]. set (gs := steered_after upd nb edge nanos steer area start ini k).
  set (gs' := if Nat.eqb (Nat.modulo k nanos) 0 then (steer_region steer (start + Nat.div k nanos) area (fst gs), snd gs) else gs).
  destruct gs' as [cur new] eqn:Eg. unfold serial_nano. cbn [fst]. rewrite (proj1 (update_region_spec upd nb edge (Nat.modulo k nanos) area cur new) c) by now apply Ha.
  apply (new_cell_ext upd nb edge). intros c' Hc'. unfold steered. pose proof (sl_closed _ _ _ _ _ (setting_laws _ _ _ _ _ Hset) c c' Hc (Hreads c c' Hc Hc')) as Hg.
  unfold gs' in Eg. destruct (Nat.eqb (Nat.modulo k nanos) 0).
  - injection Eg as <- _. rewrite (proj1 (steer_region_spec steer (start + Nat.div k nanos) area Hnd (fst gs)) c') by now apply Ha. reflexivity.
  - unfold ser. fold gs. now rewrite Eg.
Qed.

Lemma conf_ok parts : cuts n (hd 0 dim) parts -> exists cfs, stripe_configs sp dim parts n = Some cfs /\ good nb dim n parts cfs.
Proof using Hset Hdim Hpos Hreads. intros H. exact (configs_good d sp dim E n (setting_laws _ _ _ _ _ Hset) Hdim Hpos nb Hreads parts H). Qed.

Lemma init_inv : exists st0, stripes_init sp dim n period start ini = Some st0 /\ Inv (fun _ => stripe_partition (hd 0 dim) n) st0.
Proof using All.
  assert (Hcuts : cuts n (hd 0 dim) (stripe_partition (hd 0 dim) n)).
  { apply stripe_partition_cuts; [exact Hn|]. destruct dim as [|h ms]; [discriminate|]. inversion Hpos; subst. cbn. lia. }
  destruct (conf_ok _ Hcuts) as (cfs & Ec & G). unfold stripes_init. rewrite Ec. cbn [obind]. eexists. split; [reflexivity|].
  assert (Hnode : forall i nd, nth_error (map (fun cf => mkSN start 0 ini ini false (negb (bal_due period start)) [WRegion (sc_region cf); WFinished start false (sc_region cf) ini]) cfs) i = Some nd ->
    exists cf, nth_error cfs i = Some cf /\ nd = mkSN start 0 ini ini false (negb (bal_due period start)) [WRegion (sc_region cf); WFinished start false (sc_region cf) ini]).
  { intros i nd H. rewrite nth_error_map in H. destruct (nth_error cfs i) as [cf|]; [|discriminate]. injection H as <-. eauto. }
  split; cbn [ss_parts ss_cfgs ss_nodes ss_chan].
  - exact G.
  - rewrite map_length. apply (gd_len _ _ _ _ _ G).
  - intros i nd cf H Hcf. destruct (Hnode i nd H) as (cf' & Hcf' & ->). split; cbn [sn_step sn_nano sn_cur sn_new sn_pend sn_bal]; try lia.
    + intros Hb. split; [reflexivity|]. now destruct (bal_due period start).
    + intros c Hc. unfold count. cbn [sn_step sn_nano]. rewrite Nat.sub_diag. reflexivity.
    + intros _ c Hc. unfold count. cbn [sn_step sn_nano]. rewrite Nat.sub_diag. reflexivity.
  - intros i j ni nj cf H1 H2 Hcf. destruct (Hnode i ni H1) as (cfi & _ & ->). destruct (Hnode j nj H2) as (cfj & _ & ->).
    unfold chan_ok, next_msg, count. cbn [sn_step sn_nano sn_pend]. rewrite Nat.sub_diag. cbn [Nat.mul Nat.add]. split; [|reflexivity].
    intros cs _. split; [lia|]. reflexivity.
  - intros b i j ni nj _ H1 H2. destruct (Hnode i ni H1) as (cfi & _ & ->). destruct (Hnode j nj H2) as (cfj & _ & ->). cbn. auto.
  - intros _. exact Hcuts.
  - reflexivity.
  - intros i nd H. destruct (Hnode i nd H) as (cf & Hcf & ->). cbn [sn_step sn_log]. split; [cbn; now rewrite Nat.sub_diag|].
    intros s last cs g [Hx|[Hx|[]]]; [discriminate|]. injection Hx as <- <- <- <-. split; [apply (gd_nodup _ _ _ _ _ G i cf Hcf)|].
    split; [split; [discriminate|lia]|]. intros c. split; [apply (gd_cells _ _ _ _ _ G i cf c Hcf)|]. intros _. rewrite Nat.sub_diag. reflexivity.
Qed.

Definition psum (st : stripes C) : nat := list_sum (map position (ss_nodes st)).

Lemma step_inv hist st e : Inv hist st -> bal_valid n (hd 0 dim) e ->
  match step st e with Ok st' => exists hist', Inv hist' st' /\ (S (psum st) <= psum st')%nat | Wait => True | Fail => False end.
Proof using All.
  intros Hi Hb. destruct e as [i buffered|ws]; cbn [stripes_step].
  - destruct (nth_error (ss_cfgs st) i) as [cf|] eqn:Hcf; [|exact Logic.I]. destruct (nth_error (ss_nodes st) i) as [nd|] eqn:Hnd; [|exact Logic.I].
    destruct (sn_bal nd && Nat.ltb (sn_step nd) max_steps && _) eqn:Ee; [|exact Logic.I].
    apply andb_prop in Ee. destruct Ee as [Ee _]. apply andb_prop in Ee. destruct Ee as [E1 E2]. apply Nat.ltb_lt in E2.
    pose proof (nano_inv upd nb edge nanos steer dim n period start max_steps ser Hnanos ser_step hist st i cf nd Hi Hcf Hnd E1 E2) as H.
    destruct (stripe_nano upd nb edge nanos steer period max_steps cf i nd (ss_chan st)) as [(nd', ch')| |]; [|exact Logic.I|exact H].
    exists hist. split; [apply H|]. destruct H as [_ H]. unfold psum. cbn [ss_nodes]. pose proof (sum_set_nth position _ i nd nd' Hnd). lia.
  - destruct (forallb _ (ss_nodes st)) eqn:Ef; [|exact Logic.I]. rewrite forallb_forall in Ef.
    destruct (balance_inv upd nb edge nanos steer dim n period start max_steps ini ser Hnanos ser_step sp conf_ok (rows_good d dim Hdim Hpos) hist st ws Hi Hn Hb) as (st' & hist' & -> & Hi' & Hp).
    { intros i nd Hnd. apply nth_error_In in Hnd. specialize (Ef nd Hnd). apply andb_prop in Ef. destruct Ef as [E1 E2]. apply Nat.ltb_lt in E2. now destruct (sn_bal nd). }
    exists hist'. split; [exact Hi'|]. unfold psum. pose proof (in_len _ _ _ _ _ _ _ _ _ _ Hi) as L1. pose proof (in_len _ _ _ _ _ _ _ _ _ _ Hi') as L2.
    assert (Hgen : forall l l' : list (snode C), length l = length l' -> (forall i a b, nth_error l i = Some a -> nth_error l' i = Some b -> position b = S (position a)) ->
      list_sum (map position l') = (length l + list_sum (map position l))%nat).
    { clear. unfold list_sum. induction l as [|a l IH]; intros [|b l'] HL H; try discriminate; [reflexivity|]. cbn [map fold_right length].
      rewrite (IH l'); [|now injection HL|intros i; exact (H (S i))]. rewrite (H O a b eq_refl eq_refl). lia. }
    rewrite (Hgen (ss_nodes st) (ss_nodes st')); [|congruence|exact Hp]. rewrite L1. lia.
Qed.

Lemma run_inv : forall es hist st, Inv hist st -> Forall (bal_valid n (hd 0 dim)) es ->
  match run st es with Ok st' => exists hist', Inv hist' st' /\ (length es + psum st <= psum st')%nat | Wait => True | Fail => False end.
Proof using All.
  induction es as [|e es IH]; intros hist st Hi Hes; cbn [stripes_run length]; [exists hist; split; [exact Hi|lia]|].
  inversion Hes as [|? ? He Hes']; subst. pose proof (step_inv hist st e Hi He) as H. destruct (step st e) as [st1| |]; [|exact Logic.I|exact H].
  destruct H as (hist1 & H1 & Hp). specialize (IH hist1 st1 H1 Hes'). destruct (run st1 es) as [st2| |]; [|exact Logic.I|exact IH].
  destruct IH as (hist2 & H2 & Hp2). exists hist2. split; [exact H2|]. lia.
Qed.

Lemma count_total hist st i nd : Inv hist st -> nth_error (ss_nodes st) i = Some nd ->
  (count nanos start nd <= total)%nat /\ (count nanos start nd = total <-> sn_step nd = max_steps /\ sn_nano nd = O).
Proof using All.
  intros Hi Hnd. destruct (nth_error (ss_cfgs st) i) as [cf|] eqn:Hcf.
  - destruct (in_node _ _ _ _ _ _ _ _ _ _ Hi i nd cf Hnd Hcf) as [H1 H2 H3 _ _ _]. unfold count. split; [destruct H3; nia|]. split; [|intros [-> ->]; lia].
    intros H. assert (sn_step nd = max_steps) by (destruct (Nat.lt_ge_cases (sn_step nd) max_steps); [exfalso; nia|lia]). split; [assumption|]. destruct H3; [assumption|lia].
  - exfalso. apply nth_error_None in Hcf. rewrite (gd_len _ _ _ _ _ (in_good _ _ _ _ _ _ _ _ _ _ Hi)) in Hcf. rewrite <- (in_len _ _ _ _ _ _ _ _ _ _ Hi) in Hcf.
    apply nth_error_None in Hcf. congruence.
Qed.

Lemma inv_progress hist st : Inv hist st -> ~ all_done max_steps st ->
  (exists i st', step st (SNano i false) = Ok st') \/ (forall ws, bal_valid n (hd 0 dim) (SBal ws) -> exists st', step st (SBal ws) = Ok st').
Proof using All.
  intros Hi Hnot. pose proof (in_len _ _ _ _ _ _ _ _ _ _ Hi) as Ln. pose proof (in_good _ _ _ _ _ _ _ _ _ _ Hi) as G.
  destruct (min_exists position (ss_nodes st)) as (i & nd & Hnd & Hmin); [intros H; rewrite H in Ln; cbn in Ln; lia|].
  assert (Hcf : exists cf, nth_error (ss_cfgs st) i = Some cf).
  { destruct (nth_error (ss_cfgs st) i) eqn:Ec; [eauto|]. apply nth_error_None in Ec. rewrite (gd_len _ _ _ _ _ G), <- Ln in Ec. apply nth_error_None in Ec. congruence. }
  destruct Hcf as (cf & Hcf). pose proof (in_node _ _ _ _ _ _ _ _ _ _ Hi i nd cf Hnd Hcf) as Hok.
  assert (Hlt : (sn_step nd < max_steps)%nat).
  { destruct (Nat.lt_ge_cases (sn_step nd) max_steps) as [H|H]; [exact H|exfalso]. apply Hnot. intros j nj Hj.
    destruct (count_total hist st i nd Hi Hnd) as [A1 A2]. destruct (count_total hist st j nj Hi Hj) as [B1 B2]. apply B2.
    assert (count nanos start nd = total) by (apply A2; split; [pose proof (no_step _ _ _ _ _ _ _ Hok); lia|destruct (no_end _ _ _ _ _ _ _ Hok); [assumption|lia]]).
    specialize (Hmin j nj Hj). unfold pos in Hmin. destruct (sn_bal nd), (sn_bal nj); lia. }
  destruct (sn_bal nd) eqn:Eb.
  - left. exists i. cbn [stripes_step]. rewrite Hcf, Hnd, Eb. rewrite (proj2 (Nat.ltb_lt _ _) Hlt). cbn [andb orb].
    assert (Hs : negb (sn_pend nd) || sends_done cf i (ss_nodes st) (ss_chan st) = true).
    { apply orb_true_intro. right. unfold sends_done. apply forallb_forall. intros (j, cs) Hin.
      destruct (nth_error (ss_nodes st) j) as [nj|] eqn:Hnj; [|reflexivity]. apply Nat.leb_le.
      assert (Hcj : exists cfj, nth_error (ss_cfgs st) j = Some cfj).
      { destruct (nth_error (ss_cfgs st) j) eqn:Ec; [eauto|]. apply nth_error_None in Ec. rewrite (gd_len _ _ _ _ _ G), <- Ln in Ec. apply nth_error_None in Ec. congruence. }
      destruct Hcj as (cfj & Hcj). destruct (in_chan _ _ _ _ _ _ _ _ _ _ Hi j i nj nd cfj Hnj Hnd Hcj) as [Hch _].
      destruct (Hch cs) as [Hle ->]; [apply (gd_match _ _ _ _ _ G i j cf cfj cs Hcf Hcj); exact Hin|]. rewrite map_length, seq_length.
      specialize (Hmin j nj Hnj). unfold pos in Hmin. rewrite Eb in Hmin. unfold next_msg. destruct (sn_pend nj), (sn_bal nj); lia. }
    rewrite Hs. pose proof (nano_inv upd nb edge nanos steer dim n period start max_steps ser Hnanos ser_step hist st i cf nd Hi Hcf Hnd Eb Hlt) as H.
    destruct (stripe_nano upd nb edge nanos steer period max_steps cf i nd (ss_chan st)) as [(nd', ch')| |]; [eauto| |contradiction].
    exfalso. destruct H as (_ & j & nj & cs & _ & Hj & Hc). specialize (Hmin j nj Hj). unfold pos in Hmin. rewrite Eb in Hmin. destruct (sn_bal nj); lia.
  - right. intros ws Hws. cbn [stripes_step]. destruct (no_bal _ _ _ _ _ _ _ Hok Eb) as [Hz Hdue].
    assert (Hall : forall j nj, nth_error (ss_nodes st) j = Some nj -> sn_bal nj = false /\ (sn_step nj < max_steps)%nat).
    { intros j nj Hj. assert (Hle : (position nj <= position nd)%nat).
      { destruct (Nat.le_gt_cases (position nj) (position nd)) as [H|H]; [exact H|exfalso].
        pose proof (in_bar _ _ _ _ _ _ _ _ _ _ Hi (count nanos start nd) j i nj nd) as Hbar. unfold pos in *. rewrite Eb in *.
        assert (Hb : (2 * count nanos start nd + 1 <= 2 * count nanos start nd + 0)%nat); [|lia]. apply Hbar; [|exact Hj|exact Hnd|lia].
        exists (sn_step nd). split; [apply (no_step _ _ _ _ _ _ _ Hok)|]. split; [exact Hdue|]. unfold count. rewrite Hz. lia. }
      specialize (Hmin j nj Hj). unfold pos in Hmin, Hle. rewrite Eb in *. assert (Hbj : sn_bal nj = false) by (destruct (sn_bal nj); [lia|reflexivity]).
      rewrite Hbj in *. split; [reflexivity|].
      destruct (count_total hist st i nd Hi Hnd) as [A1 A2]. destruct (count_total hist st j nj Hi Hj) as [B1 B2].
      destruct (Nat.lt_ge_cases (sn_step nj) max_steps) as [H|H]; [exact H|exfalso].
      destruct (nth_error (ss_cfgs st) j) as [cfj|] eqn:Hcj.
      - pose proof (in_node _ _ _ _ _ _ _ _ _ _ Hi j nj cfj Hj Hcj) as Hokj.
        assert (count nanos start nj = total) by (apply B2; split; [pose proof (no_step _ _ _ _ _ _ _ Hokj); lia|destruct (no_end _ _ _ _ _ _ _ Hokj); [assumption|lia]]).
        assert (Ht : count nanos start nd = total) by lia. apply A2 in Ht. lia.
      - apply nth_error_None in Hcj. rewrite (gd_len _ _ _ _ _ G), <- Ln in Hcj. apply nth_error_None in Hcj. congruence. }
    assert (Hf : forallb (fun nd => negb (sn_bal nd) && Nat.ltb (sn_step nd) max_steps) (ss_nodes st) = true).
    { apply forallb_forall. intros nj Hin. apply In_nth_error in Hin. destruct Hin as (j & Hj). destruct (Hall j nj Hj) as [-> H]. cbn. now apply Nat.ltb_lt. }
    rewrite Hf. destruct (balance_inv upd nb edge nanos steer dim n period start max_steps ini ser Hnanos ser_step sp conf_ok (rows_good d dim Hdim Hpos) hist st ws Hi Hn Hws Hall) as (st' & hist' & E1 & _).
    eauto.
Qed.

(** C24: at any time of any execution, load balancing included, all nodes have
    the cells of the serial simulation; the writers have been called once per
    step, the regions partition the grid. *)
Theorem C24_balancing_transparent : exists st0, stripes_init sp dim n period start ini = Some st0 /\
  forall es, Forall (bal_valid n (hd 0 dim)) es ->
    match run st0 es with
    | Ok st =>
        length (ss_nodes st) = n /\ cuts n (hd 0 dim) (ss_parts st) /\
        (forall i nd, nth_error (ss_nodes st) i = Some nd ->
          (start <= sn_step nd <= max_steps)%nat /\ (sn_nano nd < nanos)%nat /\
          forall c, stripe_cells dim (ss_parts st) i c ->
            sn_cur nd c = fst (steered_after upd nb edge nanos steer area start ini ((sn_step nd - start) * nanos + sn_nano nd)) c) /\
        exists hist,
          (forall s c, in_grid dim c -> exists! i, (i < n)%nat /\ stripe_cells dim (hist s) i c) /\
          forall i nd, nth_error (ss_nodes st) i = Some nd ->
            writer_saw (fun k => fst (steered_after upd nb edge nanos steer area start ini k)) nanos dim hist start max_steps (sn_step nd) i (sn_log nd)
    | Wait => True
    | Fail => False
    end.
Proof using All.
  destruct init_inv as (st0 & E0 & H0). exists st0. split; [exact E0|]. intros es Hes. pose proof (run_inv es _ st0 H0 Hes) as H.
  destruct (run st0 es) as [st| |]; [|exact Logic.I|exact H]. destruct H as (hist & Hi & _). pose proof (in_good _ _ _ _ _ _ _ _ _ _ Hi) as G.
  split; [apply (in_len _ _ _ _ _ _ _ _ _ _ Hi)|]. split; [apply (gd_cuts _ _ _ _ _ G)|]. split.
  - intros i nd Hnd. destruct (nth_error (ss_cfgs st) i) as [cf|] eqn:Hcf.
    + destruct (in_node _ _ _ _ _ _ _ _ _ _ Hi i nd cf Hnd Hcf) as [H1 H2 _ _ H3 _]. split; [exact H1|]. split; [exact H2|].
      intros c Hc. apply H3. now apply (gd_cells _ _ _ _ _ G i cf c Hcf).
    + exfalso. apply nth_error_None in Hcf. rewrite (gd_len _ _ _ _ _ G), <- (in_len _ _ _ _ _ _ _ _ _ _ Hi) in Hcf. apply nth_error_None in Hcf. congruence.
  - exists hist. split; [intros s c Hc; apply (cuts_exact d); [exact Hdim|apply (in_cuts _ _ _ _ _ _ _ _ _ _ Hi)|exact Hc]|].
    intros i nd Hnd. apply (in_log _ _ _ _ _ _ _ _ _ _ Hi i nd Hnd).
Qed.

(** No deadlock, even if MPI does not buffer messages: as long as a node has
    not reached the last step, either a node can proceed or balancing can. And
    there are no infinite executions. *)
Theorem C24_no_deadlock : exists st0, stripes_init sp dim n period start ini = Some st0 /\
  forall es st, Forall (bal_valid n (hd 0 dim)) es -> run st0 es = Ok st ->
    (length es <= n * (2 * ((max_steps - start) * nanos) + 1))%nat /\
    (~ all_done max_steps st ->
       (exists i st', step st (SNano i false) = Ok st') \/
       (forall ws, bal_valid n (hd 0 dim) (SBal ws) -> exists st', step st (SBal ws) = Ok st')).
Proof using All.
  destruct init_inv as (st0 & E0 & H0). exists st0. split; [exact E0|]. intros es st Hes Hr. pose proof (run_inv es _ st0 H0 Hes) as H.
  rewrite Hr in H. destruct H as (hist & Hi & Hp). split; [|exact (inv_progress hist st Hi)].
  assert (Hb : (psum st <= n * (2 * total + 1))%nat); [|lia]. rewrite <- (in_len _ _ _ _ _ _ _ _ _ _ Hi). apply sum_bound.
  intros nd Hnd. apply In_nth_error in Hnd. destruct Hnd as (i & Hnd). destruct (count_total hist st i nd Hi Hnd) as [Hc _]. unfold pos. destruct (sn_bal nd); lia.
Qed.

(** After [k] steps the SerialSimulator has performed [k * nanos] nano steps. *)
Lemma steered_steps k : fold_left (serial_step_steered upd nb edge nanos steer area) (seq start k) (ini, ini) = steered_after upd nb edge nanos steer area start ini (k * nanos).
Proof using All.
  induction k as [|k IH]; [reflexivity|]. rewrite seq_S, fold_left_app, IH. cbn [fold_left]. unfold serial_step_steered, serial_step.
  assert (H : forall m, (1 <= m <= nanos)%nat ->
    fold_left (serial_nano upd nb edge area) (seq 0 m)
      (steer_region steer (start + k) area (fst (steered_after upd nb edge nanos steer area start ini (k * nanos))), snd (steered_after upd nb edge nanos steer area start ini (k * nanos))) =
    steered_after upd nb edge nanos steer area start ini (k * nanos + m)).
  { induction m as [|m IHm]; intros Hm; [lia|]. destruct m as [|m].
    - rewrite Nat.add_1_r. cbn [seq fold_left steered_after]. rewrite Nat.mod_mul, Nat.div_mul by lia. cbn [Nat.eqb]. reflexivity.
    - rewrite seq_S, fold_left_app, IHm by lia. replace (k * nanos + S (S m))%nat with (S (k * nanos + S m)) by lia. cbn [fold_left Nat.add]. set (m' := S m) in *. cbn [steered_after].
      assert (Hmod : Nat.modulo (k * nanos + m') nanos = m') by (rewrite Nat.add_comm, Nat.mod_add, Nat.mod_small; lia). rewrite Hmod. unfold m'. cbn [Nat.eqb]. reflexivity. }
  rewrite H by lia. f_equal. lia.
Qed.

(** Having reached the last step, the nodes have the grid of the serial
    simulation. *)
Theorem C24_final_grid : exists st0, stripes_init sp dim n period start ini = Some st0 /\
  forall es st, Forall (bal_valid n (hd 0 dim)) es -> run st0 es = Ok st -> all_done max_steps st ->
    forall c, in_grid dim c -> exists i nd, nth_error (ss_nodes st) i = Some nd /\ stripe_cells dim (ss_parts st) i c /\
      sn_cur nd c = fst (fold_left (serial_step_steered upd nb edge nanos steer area) (seq start (max_steps - start)) (ini, ini)) c.
Proof using All.
  destruct C24_balancing_transparent as (st0 & E0 & H). exists st0. split; [exact E0|]. intros es st Hes Hr Hd c Hc.
  specialize (H es Hes). rewrite Hr in H. destruct H as (Ln & Hcuts & Hv & _). destruct (cuts_exact d dim n _ c Hdim Hcuts Hc) as (i & [Hi Hs] & _).
  destruct (nth_error (ss_nodes st) i) as [nd|] eqn:Hnd; [|apply nth_error_None in Hnd; lia]. exists i, nd. split; [exact Hnd|]. split; [exact Hs|].
  destruct (Hv i nd Hnd) as (_ & _ & Hval). rewrite (Hval c Hs). destruct (Hd i nd Hnd) as [-> ->]. rewrite steered_steps, Nat.add_0_r. reflexivity.
Qed.

End Props.

Print Assumptions C24_balancing_transparent.
Print Assumptions C24_no_deadlock.
Print Assumptions C24_final_grid.

(** C24 for regular grids, stencils and all topologies. *)
Theorem C24_regular_grid {C} (upd : nat -> coord -> list C -> C) (edge : C) nanos steer d dim t offs n period area start max_steps (ini : grid C) :
  length dim = S d -> length t = S d -> Forall (fun x => 0 < x) dim ->
  Forall (fun o => near (diagonal (S d) 1) o (diagonal (S d) 0)) offs ->
  NoDup area /\ (forall c, In c area <-> in_grid dim c) -> (1 <= n)%nat -> (1 <= nanos)%nat -> (1 <= period)%nat -> (start <= max_steps)%nat ->
  let nb := stencil_nb t dim offs in
  exists st0, stripes_init (Regular dim t) dim n period start ini = Some st0 /\
    forall es st, Forall (bal_valid n (hd 0 dim)) es ->
      stripes_run upd nb edge nanos steer (Regular dim t) dim n period max_steps ini st0 es = Ok st -> all_done max_steps st ->
      forall c, in_grid dim c -> exists i nd, nth_error (ss_nodes st) i = Some nd /\ stripe_cells dim (ss_parts st) i c /\
        sn_cur nd c = fst (fold_left (serial_step_steered upd nb edge nanos steer area) (seq start (max_steps - start)) (ini, ini)) c.
Proof.
  intros Hd Ht Hp Ho Ha Hn Hnn Hper Hs nb.
  apply (C24_final_grid upd nb edge nanos steer d (Regular dim t) dim (moore d dim t)); auto.
  - constructor; auto. eapply Forall_impl; [|exact Hp]. cbn. lia.
  - now apply stencil_reads.
Qed.
Print Assumptions C24_regular_grid.

(** ** Examples *)

Definition sx_steer (t : nat) (c : coord) (x : Z) : Z := if Nat.even t then x + 10 * hd 0 c else x.
Definition sx_bal (t : nat) : list Z := if Nat.eqb t 4 then [1; 4; 1] else [3; 0; 3].

(** The grid of 5 x 6 cells of C21, three nodes, two nano steps per step; loads
    are balanced at steps 4 and 6. *)
Example C24_hypotheses :
  setting 1 (Regular [6; 5] [false; true]) (in_grid [6; 5]) (moore 1 [6; 5] [false; true]) 1 /\
  reads_within (in_grid [6; 5]) (moore 1 [6; 5] [false; true]) ex_nb /\
  NoDup ex_area /\ (forall c, In c ex_area <-> in_grid [6; 5] c) /\
  Forall (bal_valid 3 6) [SBal (sx_bal 4); SBal (sx_bal 6)].
Proof.
  split; [constructor; try reflexivity; repeat constructor; lia|].
  split; [apply stencil_reads; [reflexivity|reflexivity|repeat constructor; lia|apply C21_hypotheses]|].
  split; [|split; [apply C21_hypotheses|]]. 2: { repeat (apply Forall_cons; [cbn; split; [reflexivity|split; [repeat constructor; lia|reflexivity]]|]). constructor. }
  assert (H : nodup (list_eq_dec Z.eq_dec) ex_area = ex_area) by (vm_compute; reflexivity). rewrite <- H. apply NoDup_nodup.
Qed.

Definition sx_run : option (stripes Z * list sevent) :=
  match stripes_init (Regular [6; 5] [false; true]) [6; 5] 3 2 4 ex_ini with
  | Some st0 =>
      let es := snd (stripes_rounds ex_upd ex_nb (-7) 2 sx_steer (Regular [6; 5] [false; true]) [6; 5] 3 2 7 ex_ini sx_bal 12 st0) in
      match stripes_run ex_upd ex_nb (-7) 2 sx_steer (Regular [6; 5] [false; true]) [6; 5] 3 2 7 ex_ini st0 es with
      | Ok st => Some (st, es)
      | _ => None
      end
  | None => None
  end.

(** 2 events of load balancing, 6 nano steps on each node; at the end the
    stripes have 3, 0 and 3 rows. *)
Example C24_example :
  option_map (fun '(st, es) => (ss_parts st, length es, length (filter (fun e => match e with SBal _ => true | _ => false end) es),
    map (fun nd => (sn_step nd, sn_nano nd)) (ss_nodes st),
    map (fun '(i, c) => option_map (fun nd => sn_cur nd c) (nth_error (ss_nodes st) i)) [(0%nat, [0; 0]); (0%nat, [2; 4]); (2%nat, [3; 1]); (2%nat, [5; 4])],
    map (fun nd => map (fun w => match w with WRegion r => (99%nat, length r) | WFinished t _ r _ => (t, length r) end) (sn_log nd)) (ss_nodes st)))
    sx_run =
  Some ([0; 3; 3; 6], 20%nat, 2%nat, [(7, 0); (7, 0); (7, 0)]%nat, [Some 98; Some 933; Some 378; Some 89],
    [[(99, 10); (4, 10); (5, 5); (6, 5); (7, 15)]; [(99, 10); (4, 10); (5, 20); (6, 20); (7, 0)]; [(99, 10); (4, 10); (5, 5); (6, 5); (7, 15)]]%nat) /\
  map (fst (fold_left (serial_step_steered ex_upd ex_nb (-7) 2 sx_steer ex_area) (seq 4 3) (ex_ini, ex_ini))) [[0; 0]; [2; 4]; [3; 1]; [5; 4]] = [98; 933; 378; 89].
Proof. split; vm_compute; reflexivity. Qed.

(** ** Violations *)

(** C68: after balancing, writers are not told the new region, and
    [stepFinished] gets regions which are not subsets of the announced one. *)
Theorem C68_writer_region_after_balancing_refuted : exists st0 es st i nd,
  stripes_init (Regular [6; 5] [false; true]) [6; 5] 3 2 4 ex_ini = Some st0 /\
  Forall (bal_valid 3 6) es /\
  stripes_run ex_upd ex_nb (-7) 2 sx_steer (Regular [6; 5] [false; true]) [6; 5] 3 2 7 ex_ini st0 es = Ok st /\
  nth_error (ss_nodes st) i = Some nd /\ ~ within_announced [] (sn_log nd).
Proof.
  destruct (stripes_init (Regular [6; 5] [false; true]) [6; 5] 3 2 4 ex_ini) as [st0|] eqn:E0; [|vm_compute in E0; discriminate].
  set (es := SBal [1; 4; 1] :: [SNano 1 true; SNano 0 true; SNano 2 true; SNano 1 true]).
  assert (H : match stripes_init (Regular [6; 5] [false; true]) [6; 5] 3 2 4 ex_ini with
    | Some s => match stripes_run ex_upd ex_nb (-7) 2 sx_steer (Regular [6; 5] [false; true]) [6; 5] 3 2 7 ex_ini s es with
        | Ok s' => match nth_error (ss_nodes s') 1 with
            | Some nd => match sn_log nd with
                | [WRegion r; WFinished _ _ _ _; WFinished _ _ r' _] => existsb (fun c => if list_eq_dec Z.eq_dec c [1; 0] then true else false) r = false /\
                    existsb (fun c => if list_eq_dec Z.eq_dec c [1; 0] then true else false) r' = true
                | _ => False
                end
            | None => False
            end
        | _ => False
        end
    | None => False end) by (vm_compute; split; reflexivity).
  rewrite E0 in H.
  destruct (stripes_run ex_upd ex_nb (-7) 2 sx_steer (Regular [6; 5] [false; true]) [6; 5] 3 2 7 ex_ini st0 es) as [st| |] eqn:Er; try contradiction.
  destruct (nth_error (ss_nodes st) 1) as [nd|] eqn:En; [|contradiction].
  exists st0, es, st, 1%nat, nd. split; [reflexivity|]. split; [repeat constructor; cbn; lia|]. split; [exact Er|]. split; [exact En|].
  destruct (sn_log nd) as [|[r|? ? ? ?] [|[?|? ? ? ?] [|[?|? ? r' ?] [|? ?]]]]; try contradiction. destruct H as [H1 H2]. cbn [within_announced]. intros (_ & Hin & _).
  apply existsb_exists in H2. destruct H2 as (c & Hc & Hd). apply Hin in Hc. assert (Ht : existsb (fun c => if list_eq_dec Z.eq_dec c [1; 0] then true else false) r = true); [|congruence].
  apply existsb_exists. eauto.
Qed.

(** C69: [run] does not start from the Initializer's cells if [step] has been
    called before: the messages of those steps are loaded into the new grid.
    2 nodes, 4 rows of 2 cells, a single step. *)
Definition rs_space : space := Regular [4; 2] [false; false].
Definition rs_nb : coord -> list (option coord) := stencil_nb [false; false] [4; 2] [[0; 0]; [1; 0]; [-1; 0]].
Definition rs_upd (nano : nat) (c : coord) (l : list Z) : Z := fold_left Z.add l 0.
Definition rs_area : list coord := flat_map (fun y => map (fun x => [Z.of_nat y; Z.of_nat x]) (seq 0 2)) (seq 0 4).
Definition rs_ini : grid Z := fun c => hd 0 c + 1.
Definition rs_run := stripes_run rs_upd rs_nb 0 1 (fun _ _ x => x) rs_space [4; 2] 2 5 2 rs_ini.

Theorem C69_run_after_step_refuted : exists st0 st1 st2 nd,
  stripes_init rs_space [4; 2] 2 5 1 rs_ini = Some st0 /\
  rs_run st0 [SNano 0 true; SNano 1 true] = Ok st1 /\
  rs_run (stripes_restart 5 1 rs_ini st1) [SNano 0 true; SNano 1 true] = Ok st2 /\
  all_done 2 st2 /\ nth_error (ss_nodes st2) 0 = Some nd /\ stripe_cells [4; 2] (ss_parts st2) 0 [1; 0] /\
  sn_cur nd [1; 0] <> fst (fold_left (serial_step_steered rs_upd rs_nb 0 1 (fun _ _ x => x) rs_area) (seq 1 1) (rs_ini, rs_ini)) [1; 0].
Proof.
  assert (H : match stripes_init rs_space [4; 2] 2 5 1 rs_ini with
    | Some s => match rs_run s [SNano 0 true; SNano 1 true] with
        | Ok s1 => match rs_run (stripes_restart 5 1 rs_ini s1) [SNano 0 true; SNano 1 true] with
            | Ok s2 => map (fun nd => (sn_step nd, sn_nano nd, sn_cur nd [1; 0])) (ss_nodes s2) = [(2%nat, 0%nat, 12); (2%nat, 0%nat, 2)] /\ ss_parts s2 = [0; 2; 4]
            | _ => False end
        | _ => False end
    | None => False end) by (vm_compute; split; reflexivity).
  destruct (stripes_init rs_space [4; 2] 2 5 1 rs_ini) as [s0|]; [|contradiction]. destruct (rs_run s0 _) as [s1| |] eqn:E1; try contradiction.
  destruct (rs_run (stripes_restart 5 1 rs_ini s1) _) as [s2| |] eqn:E2; try contradiction. destruct H as [H Hp].
  destruct (ss_nodes s2) as [|a [|b [|? ?]]] eqn:En; try discriminate. injection H as Ha1 Ha2 Ha3 Hb1 Hb2 Hb3.
  exists s0, s1, s2, a. split; [reflexivity|]. split; [exact E1|]. split; [exact E2|]. split.
  - intros i nd Hi. rewrite En in Hi. destruct i as [|[|[|i]]]; cbn in Hi; try discriminate; injection Hi as <-; auto.
  - split; [now rewrite En|]. rewrite Hp. split; [unfold stripe_cells, in_grid; cbn; lia|]. rewrite Ha3. vm_compute. discriminate.
Qed.

Print Assumptions C68_writer_region_after_balancing_refuted.
Print Assumptions C69_run_after_step_refuted.
