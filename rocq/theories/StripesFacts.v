(** Facts on StripingSimulator: the invariant of the nodes and messages. *)
From Verif Require Import Base ListFacts CoordModel CoordSpec RegionSpec RegionModel RegionOpsModel PartitionManagerModel HaloSpec
  PatchModel PatchFacts AdapterModel StepperModel StepperFacts StripesModel StripesSpec.

Section Dyn.
Context {C : Type}.
Context (upd : nat -> coord -> list C -> C) (nb : coord -> list (option coord)) (edge : C) (nanos : nat) (steer : nat -> coord -> C -> C).
Context (dim : coord) (n period start max_steps : nat) (ini : grid C).
Context (ser : nat -> grid C).
Context (Hnanos : (1 <= nanos)%nat).

(** ** Steering *)

Lemma steer_region_spec t cs : NoDup cs -> forall (g : grid C),
  (forall c, In c cs -> steer_region steer t cs g c = steer t c (g c)) /\ (forall c, ~ In c cs -> steer_region steer t cs g c = g c).
Proof.
  unfold steer_region. induction 1 as [|a cs Ha Hnd IH]; intros g; cbn [fold_left]; [split; [intros c []|auto]|].
  destruct (IH (gset g a (steer t a (g a)))) as [I1 I2]. split.
  - intros c [->|Hc].
    + rewrite I2 by exact Ha. unfold gset, coord_eqb. destruct (list_eq_dec Z.eq_dec c c); [reflexivity|contradiction].
    + rewrite I1 by exact Hc. f_equal. unfold gset, coord_eqb. destruct (list_eq_dec Z.eq_dec a c); [subst; contradiction|reflexivity].
  - intros c Hc. rewrite I2 by (intros H; apply Hc; now right). unfold gset, coord_eqb.
    destruct (list_eq_dec Z.eq_dec a c) as [->|]; [exfalso; apply Hc; now left|reflexivity].
Qed.

(** The state the update of nano step [k] reads. *)
Definition steered (k : nat) (c : coord) : C :=
  if Nat.eqb (Nat.modulo k nanos) 0 then steer (start + Nat.div k nanos)%nat c (ser k c) else ser k c.

Context (Hser : forall k c, in_grid dim c -> ser (S k) c = new_cell upd nb edge (Nat.modulo k nanos) (steered k) c).

Lemma new_cell_ext nano (g1 g2 : grid C) c : (forall c', In (Some c') (nb c) -> g1 c' = g2 c') ->
  new_cell upd nb edge nano g1 c = new_cell upd nb edge nano g2 c.
Proof.
  intros H. unfold new_cell. f_equal. apply map_ext_in. intros [c'|] Hc; cbn [read]; [now apply H|reflexivity].
Qed.

(** ** Messages *)

Lemma set_chan_eq (ch : chans C) i j l : set_chan ch i j l i j = l.
Proof. unfold set_chan. now rewrite !Nat.eqb_refl. Qed.

Lemma set_chan_neq (ch : chans C) i j l a b : a <> i \/ b <> j -> set_chan ch i j l a b = ch a b.
Proof. intros H. unfold set_chan. destruct (Nat.eqb_spec a i), (Nat.eqb_spec b j); cbn; auto. subst. destruct H; contradiction. Qed.

Definition keys (l : list (nat * list coord)) : list nat := map fst l.

Lemma in_keys l j : In j (keys l) <-> exists cs, In (j, cs) l.
Proof.
  unfold keys. rewrite in_map_iff. split; [intros ((a, cs) & <- & H); eauto|intros (cs & H); exists (j, cs); auto].
Qed.

Lemma load_ghosts_spec (val : grid C) i : forall l ch g, NoDup (keys l) ->
  (forall j cs, In (j, cs) l -> ch j i = [] \/ exists ms, ch j i = map val cs :: ms) ->
  match load_ghosts l i ch g with
  | Ok (g', ch') =>
      (forall c, g c = val c -> g' c = val c) /\ (forall j cs c, In (j, cs) l -> In c cs -> g' c = val c) /\
      (forall j cs, In (j, cs) l -> ch j i = map val cs :: ch' j i) /\ (forall a b, b <> i \/ ~ In a (keys l) -> ch' a b = ch a b)
  | Wait => exists j cs, In (j, cs) l /\ ch j i = []
  | Fail => False
  end.
Proof.
  induction l as [|(j, cs) l IH]; intros ch g Hnd Hch; cbn [load_ghosts].
  - split; [auto|]. split; [intros j cs c []|]. split; [intros j cs []|]. auto.
  - cbn [keys map fst] in Hnd. inversion Hnd as [|? ? Hj Hnd']; subst. destruct (Hch j cs (or_introl eq_refl)) as [E|(ms & E)]; rewrite E.
    { exists j, cs. split; [now left|exact E]. }
    destruct (load_save cs g val) as (g1 & E1 & V1 & K1). unfold save_region in E1. rewrite E1.
    specialize (IH (set_chan ch j i ms) g1 Hnd').
    assert (Hk : forall j' cs', In (j', cs') l -> set_chan ch j i ms j' i = ch j' i).
    { intros j' cs' H. apply set_chan_neq. left. intros ->. apply Hj. apply in_keys. eauto. }
    destruct (load_ghosts l i (set_chan ch j i ms) g1) as [[g' ch']| |].
    + destruct IH as (I1 & I2 & I3 & I4).
      { intros j' cs' H. rewrite (Hk j' cs' H). apply Hch. now right. }
      split; [|split; [|split]].
      * intros c Hc. apply I1. destruct (in_dec (list_eq_dec Z.eq_dec) c cs) as [H|H]; [now apply V1|rewrite K1 by exact H; exact Hc].
      * intros j' cs' c [[= <- <-]|H] Hc; [|eapply I2; eauto]. apply I1. now apply V1.
      * intros j' cs' [[= <- <-]|H].
        -- rewrite E. f_equal. rewrite I4 by (right; exact Hj). now rewrite set_chan_eq.
        -- rewrite <- (I3 j' cs' H). symmetry. now apply (Hk j' cs').
      * intros a b H. rewrite I4; [apply set_chan_neq|].
        -- destruct H as [H|H]; [now right|]. left. intros ->. apply H. now left.
        -- destruct H as [H|H]; [now left|right]. intros Ha. apply H. now right.
    + destruct IH as (j' & cs' & H1 & H2).
      { intros j' cs' H. rewrite (Hk j' cs' H). apply Hch. now right. }
      rewrite (Hk j' cs' H1) in H2. exists j', cs'. split; [now right|exact H2].
    + apply IH. intros j' cs' H. rewrite (Hk j' cs' H). apply Hch. now right.
Qed.

Lemma send_ghosts_spec (g : grid C) i : forall l ch, NoDup (keys l) ->
  (forall j cs, In (j, cs) l -> send_ghosts l i ch g i j = ch i j ++ [map g cs]) /\
  (forall a b, a <> i \/ ~ In b (keys l) -> send_ghosts l i ch g a b = ch a b).
Proof.
  induction l as [|(j, cs) l IH]; intros ch Hnd; cbn [send_ghosts]; [split; [intros j cs []|auto]|].
  cbn [keys map fst] in Hnd. inversion Hnd as [|? ? Hj Hnd']; subst.
  destruct (IH (set_chan ch i j (ch i j ++ [save_region g cs])) Hnd') as [I1 I2]. split.
  - intros j' cs' [[= <- <-]|H].
    + rewrite I2 by (right; exact Hj). now rewrite set_chan_eq.
    + rewrite (I1 j' cs' H). f_equal. apply set_chan_neq. right. intros ->. apply Hj. apply in_keys. eauto.
  - intros a b H. rewrite I2.
    + apply set_chan_neq. destruct H as [H|H]; [now left|]. right. intros ->. apply H. now left.
    + destruct H as [H|H]; [now left|right]. intros Hb. apply H. now right.
Qed.

(** ** The invariant *)

(** What is needed of the regions computed for the partition [parts]. *)
Record good (parts : list Z) (cfs : list scfg) : Prop := {
  gd_cuts : cuts n (hd 0 dim) parts;
  gd_len : length cfs = n;
  gd_cells : forall i cf c, nth_error cfs i = Some cf -> (In c (sc_region cf) <-> stripe_cells dim parts i c);
  gd_nodup : forall i cf, nth_error cfs i = Some cf -> NoDup (sc_region cf) /\ NoDup (sc_expanded cf) /\ NoDup (keys (sc_in cf)) /\ NoDup (keys (sc_out cf));
  gd_own : forall i cf c, nth_error cfs i = Some cf -> (In c (sc_region cf) <-> In c (sc_rim cf) \/ In c (sc_inner cf));
  gd_reads : forall i cf c c', nth_error cfs i = Some cf -> In c (sc_region cf) -> In (Some c') (nb c) -> In c' (sc_expanded cf);
  gd_sub : forall i cf c, nth_error cfs i = Some cf -> In c (sc_region cf) -> In c (sc_expanded cf);
  gd_exp : forall i cf c, nth_error cfs i = Some cf -> In c (sc_expanded cf) -> In c (sc_region cf) \/ exists j cs, In (j, cs) (sc_in cf) /\ In c cs;
  gd_match : forall i j cfi cfj cs, nth_error cfs i = Some cfi -> nth_error cfs j = Some cfj -> (In (j, cs) (sc_out cfi) <-> In (i, cs) (sc_in cfj));
  gd_lt : forall i cf j cs, nth_error cfs i = Some cf -> (In (j, cs) (sc_in cf) \/ In (j, cs) (sc_out cf)) -> j <> i /\ (j < n)%nat;
  gd_rim : forall i cf j cs c, nth_error cfs i = Some cf -> In (j, cs) (sc_out cf) -> In c cs -> In c (sc_rim cf)
}.

(** Nano steps performed since the start. *)
Definition count (nd : snode C) : nat := ((sn_step nd - start) * nanos + sn_nano nd)%nat.

(** The first message the node has not received yet. *)
Definition next_msg (nd : snode C) : nat := if sn_pend nd then count nd else S (count nd).

Record node_ok (cf : scfg) (nd : snode C) : Prop := {
  no_step : (start <= sn_step nd <= max_steps)%nat;
  no_nano : (sn_nano nd < nanos)%nat;
  no_end : sn_nano nd = O \/ (sn_step nd < max_steps)%nat;
  no_bal : sn_bal nd = false -> sn_nano nd = O /\ bal_due period (sn_step nd) = true;
  no_cur : forall c, In c (sc_region cf) -> sn_cur nd c = ser (count nd) c;
  no_ghost : sn_pend nd = false -> forall c, In c (sc_expanded cf) -> sn_cur nd c = ser (count nd) c
}.

(** Balancing splits the counter. *)
Definition pos (nd : snode C) : nat := (2 * count nd + (if sn_bal nd then 1 else 0))%nat.

Definition barrier (b : nat) : Prop := exists s, (start <= s)%nat /\ bal_due period s = true /\ b = ((s - start) * nanos)%nat.

Definition chan_ok (cf : scfg) (ni nj : snode C) (i j : nat) (ch : chans C) : Prop :=
  (forall cs, In (j, cs) (sc_in cf) ->
    (next_msg ni <= S (count nj))%nat /\ ch j i = map (fun k => map (ser k) cs) (seq (next_msg ni) (S (count nj) - next_msg ni))) /\
  (~ In j (keys (sc_in cf)) -> ch j i = []).

Record inv (hist : nat -> list Z) (st : stripes C) : Prop := {
  in_good : good (ss_parts st) (ss_cfgs st);
  in_len : length (ss_nodes st) = n;
  in_node : forall i nd cf, nth_error (ss_nodes st) i = Some nd -> nth_error (ss_cfgs st) i = Some cf -> node_ok cf nd;
  in_chan : forall i j ni nj cf, nth_error (ss_nodes st) i = Some ni -> nth_error (ss_nodes st) j = Some nj -> nth_error (ss_cfgs st) i = Some cf ->
    chan_ok cf ni nj i j (ss_chan st);
  in_bar : forall b i j ni nj, barrier b -> nth_error (ss_nodes st) i = Some ni -> nth_error (ss_nodes st) j = Some nj ->
    (2 * b + 1 <= pos ni)%nat -> (2 * b + 1 <= pos nj)%nat;
  in_cuts : forall s, cuts n (hd 0 dim) (hist s);
  in_hist : forall i nd s, nth_error (ss_nodes st) i = Some nd -> (sn_step nd < s)%nat -> hist s = ss_parts st;
  in_log : forall i nd, nth_error (ss_nodes st) i = Some nd -> writer_saw ser nanos dim hist start max_steps (sn_step nd) i (sn_log nd)
}.

(** ** Nano steps *)

Lemma count_div nd cf : node_ok cf nd -> Nat.modulo (count nd) nanos = sn_nano nd /\ (start + Nat.div (count nd) nanos = sn_step nd)%nat.
Proof.
  intros H. unfold count. pose proof (no_nano _ _ H). pose proof (no_step _ _ H). rewrite Nat.add_comm. rewrite Nat.mod_add by lia.
  rewrite Nat.div_add by lia. rewrite Nat.mod_small, Nat.div_small by lia. lia.
Qed.

(** One nano step of a node whose ghosts have arrived. *)
Lemma nano_values cf nd (cur : grid C) i parts cfs : good parts cfs -> nth_error cfs i = Some cf -> node_ok cf nd ->
  (forall c, In c (sc_expanded cf) -> cur c = ser (count nd) c) ->
  let cur' := if Nat.eqb (sn_nano nd) 0 then steer_region steer (sn_step nd) (sc_expanded cf) cur else cur in
  let new1 := update_region upd nb edge (sn_nano nd) (sc_rim cf) cur' (sn_new nd) in
  let new2 := update_region upd nb edge (sn_nano nd) (sc_inner cf) cur' new1 in
  (forall c, In c (sc_rim cf) -> new1 c = ser (S (count nd)) c) /\ (forall c, In c (sc_region cf) -> new2 c = ser (S (count nd)) c).
Proof.
  intros G Hcf Hok Hcur cur' new1 new2. destruct (count_div nd cf Hok) as [Em Ed].
  assert (Hst : forall c, In c (sc_expanded cf) -> cur' c = steered (count nd) c).
  { intros c Hc. unfold cur', steered. rewrite Em, Ed. destruct (Nat.eqb (sn_nano nd) 0); [|now apply Hcur].
    destruct (gd_nodup _ _ G i cf Hcf) as (_ & Hnd & _). destruct (steer_region_spec (sn_step nd) _ Hnd cur) as [S1 _].
    rewrite (S1 c Hc), (Hcur c Hc). reflexivity. }
  assert (Hnew : forall c, In c (sc_region cf) -> new_cell upd nb edge (sn_nano nd) cur' c = ser (S (count nd)) c).
  { intros c Hc. rewrite Hser, Em.
    - apply new_cell_ext. intros c' Hc'. apply Hst. eapply gd_reads; eauto.
    - apply (gd_cells _ _ G i cf c Hcf) in Hc. apply Hc. }
  assert (Hrim : forall c, In c (sc_rim cf) -> new1 c = ser (S (count nd)) c).
  { intros c Hc. unfold new1. rewrite (proj1 (update_region_spec upd nb edge _ _ _ _) c Hc). apply Hnew.
    apply (gd_own _ _ G i cf c Hcf). now left. }
  split; [exact Hrim|]. intros c Hc. unfold new2.
  destruct (in_dec (list_eq_dec Z.eq_dec) c (sc_inner cf)) as [Hi|Hi].
  - rewrite (proj1 (update_region_spec upd nb edge _ _ _ _) c Hi). now apply Hnew.
  - rewrite (proj2 (update_region_spec upd nb edge _ _ _ _) c Hi). apply Hrim.
    apply (gd_own _ _ G i cf c Hcf) in Hc. destruct Hc; [assumption|contradiction].
Qed.

(** Waiting for ghosts. *)
Lemma wait_spec cfs parts nodes ch i cf nd : good parts cfs -> length nodes = n ->
  (forall i nd cf, nth_error nodes i = Some nd -> nth_error cfs i = Some cf -> node_ok cf nd) ->
  nth_error cfs i = Some cf -> nth_error nodes i = Some nd ->
  (forall j nj, nth_error nodes j = Some nj -> chan_ok cf nd nj i j ch) ->
  match wait_ghosts cf i nd ch with
  | Ok (cur, ch') =>
      (forall c, In c (sc_expanded cf) -> cur c = ser (count nd) c) /\
      (forall a b, b <> i \/ ~ In a (keys (sc_in cf)) -> ch' a b = ch a b) /\
      (forall j nj cs, In (j, cs) (sc_in cf) -> nth_error nodes j = Some nj ->
        (S (count nd) <= S (count nj))%nat /\ ch' j i = map (fun k => map (ser k) cs) (seq (S (count nd)) (S (count nj) - S (count nd))))
  | Wait => sn_pend nd = true /\ exists j nj cs, In (j, cs) (sc_in cf) /\ nth_error nodes j = Some nj /\ (count nj < count nd)%nat
  | Fail => False
  end.
Proof.
  intros G Hlen Hok Hcf Hnd Hch. pose proof (Hok i nd cf Hnd Hcf) as Ho. destruct (gd_nodup _ _ G i cf Hcf) as (_ & _ & Hk & _).
  assert (Hnj : forall j cs, In (j, cs) (sc_in cf) -> exists nj, nth_error nodes j = Some nj).
  { intros j cs H. destruct (gd_lt _ _ G i cf j cs Hcf (or_introl H)) as [_ Hj]. rewrite <- Hlen in Hj. apply nth_error_Some in Hj.
    destruct (nth_error nodes j); [eauto|contradiction]. }
  unfold wait_ghosts. destruct (sn_pend nd) eqn:Ep.
  - assert (Hn : next_msg nd = count nd) by (unfold next_msg; now rewrite Ep).
    pose proof (load_ghosts_spec (ser (count nd)) i (sc_in cf) ch (sn_cur nd) Hk) as L.
    assert (Hm : forall j cs, In (j, cs) (sc_in cf) -> ch j i = [] \/ exists ms, ch j i = map (ser (count nd)) cs :: ms).
    { intros j cs H. destruct (Hnj j cs H) as (nj & Ej). destruct (Hch j nj Ej) as [H1 _]. destruct (H1 cs H) as [Hle E]. rewrite Hn in *.
      rewrite E. destruct (S (count nj) - count nd)%nat as [|m]; [left; reflexivity|right]. cbn [seq map]. eauto. }
    specialize (L Hm). destruct (load_ghosts (sc_in cf) i ch (sn_cur nd)) as [[cur ch']| |].
    + destruct L as (L1 & L2 & L3 & L4). split; [|split; [exact L4|]].
      * intros c Hc. destruct (gd_exp _ _ G i cf c Hcf Hc) as [Hr|(j & cs & Hj & Hcs)]; [apply L1; now apply (no_cur _ _ Ho)|eapply L2; eauto].
      * intros j nj cs H Ej. destruct (Hch j nj Ej) as [H1 _]. destruct (H1 cs H) as [Hle E]. rewrite Hn in *. pose proof (L3 j cs H) as E3.
        rewrite E in E3. destruct (S (count nj) - count nd)%nat as [|m] eqn:Em; [discriminate|]. cbn [seq map] in E3. injection E3 as E3.
        split; [lia|]. rewrite <- E3. do 2 f_equal. lia.
    + split; [reflexivity|]. destruct L as (j & cs & H & E). destruct (Hnj j cs H) as (nj & Ej). exists j, nj, cs. split; [exact H|]. split; [exact Ej|].
      destruct (Hch j nj Ej) as [H1 _]. destruct (H1 cs H) as [Hle E']. rewrite Hn in *. rewrite E in E'.
      destruct (S (count nj) - count nd)%nat as [|m] eqn:Em; [lia|discriminate].
    + exact L.
  - split; [exact (no_ghost _ _ Ho Ep)|]. split; [auto|]. intros j nj cs H Ej. destruct (Hch j nj Ej) as [H1 _]. specialize (H1 cs H).
    unfold next_msg in H1. rewrite Ep in H1. exact H1.
Qed.

Lemma seq_snoc a m : seq a (S m) = seq a m ++ [(a + m)%nat].
Proof. replace (S m) with (m + 1)%nat by lia. now rewrite seq_app. Qed.

Lemma saw_snoc hist t i log last cs g : (start <= t)%nat -> NoDup cs -> (last = true <-> S t = max_steps) ->
  (forall c, In c cs <-> stripe_cells dim (hist (S t)) i c) -> (forall c, In c cs -> g c = ser ((S t - start) * nanos)%nat c) ->
  writer_saw ser nanos dim hist start max_steps t i log ->
  writer_saw ser nanos dim hist start max_steps (S t) i (log ++ [WFinished (S t) last cs g]).
Proof.
  intros Ht Hnd Hl Hc Hg [H1 H2]. split.
  - unfold finished_steps in *. rewrite flat_map_app, H1. cbn [flat_map app]. replace (S (S t - start)) with (S (S (t - start))) by lia.
    rewrite (seq_snoc start (S (t - start))). do 3 f_equal. lia.
  - intros s l cs' g' Hin. apply in_app_iff in Hin. destruct Hin as [Hin|[[= <- <- <- <-]|[]]]; [eapply H2; eauto|].
    split; [exact Hnd|]. split; [rewrite Hl; lia|]. intros c. split; [apply Hc|apply Hg].
Qed.

Lemma nano_inv hist st i cf nd : inv hist st -> nth_error (ss_cfgs st) i = Some cf -> nth_error (ss_nodes st) i = Some nd ->
  sn_bal nd = true -> (sn_step nd < max_steps)%nat ->
  match stripe_nano upd nb edge nanos steer period max_steps cf i nd (ss_chan st) with
  | Ok (nd', ch') => inv hist (mkStripes (ss_parts st) (ss_cfgs st) (set_nth (ss_nodes st) i nd') ch') /\ (pos nd < pos nd')%nat
  | Wait => sn_pend nd = true /\ exists j nj cs, In (j, cs) (sc_in cf) /\ nth_error (ss_nodes st) j = Some nj /\ (count nj < count nd)%nat
  | Fail => False
  end.
Proof.
  intros V Hcf Hnd Hbal Hmax. pose proof (in_good _ _ V) as G. pose proof (in_node _ _ V i nd cf Hnd Hcf) as Ho.
  pose proof (wait_spec (ss_cfgs st) (ss_parts st) (ss_nodes st) (ss_chan st) i cf nd G (in_len _ _ V) (in_node _ _ V) Hcf Hnd
    (fun j nj Hj => in_chan _ _ V i j nd nj cf Hnd Hj Hcf)) as W.
  unfold stripe_nano. destruct (wait_ghosts cf i nd (ss_chan st)) as [[cur ch1]| |]; [|exact W|exact W].
  destruct W as (W1 & W2 & W3). pose proof (nano_values cf nd cur i _ _ G Hcf Ho W1) as NV. cbv zeta in NV.
  set (cur' := if Nat.eqb (sn_nano nd) 0 then _ else cur) in *. set (new1 := update_region upd nb edge (sn_nano nd) (sc_rim cf) cur' (sn_new nd)) in *.
  set (new2 := update_region upd nb edge (sn_nano nd) (sc_inner cf) cur' new1) in *. destruct NV as [V1 V2].
  destruct (gd_nodup _ _ G i cf Hcf) as (Hnr & _ & _ & Hko).
  pose proof (send_ghosts_spec new1 i (sc_out cf) ch1 Hko) as [S1 S2]. set (ch2 := send_ghosts (sc_out cf) i ch1 new1) in *.
  assert (Hi : (i < length (ss_nodes st))%nat) by (apply nth_error_Some; congruence).
  pose proof (no_step _ _ Ho) as Hs. pose proof (no_nano _ _ Ho) as Hn.
  (* whatever the new node, all that matters are these *)
  assert (Main : forall nd', count nd' = S (count nd) -> sn_pend nd' = true -> node_ok cf nd' -> (pos nd < pos nd')%nat ->
    (sn_nano nd' = O -> sn_bal nd' = negb (bal_due period (sn_step nd'))) -> (sn_step nd <= sn_step nd')%nat ->
    writer_saw ser nanos dim hist start max_steps (sn_step nd') i (sn_log nd') ->
    inv hist (mkStripes (ss_parts st) (ss_cfgs st) (set_nth (ss_nodes st) i nd') ch2) /\ (pos nd < pos nd')%nat).
  { intros nd' Hc Hp Hok' Hpos Hbal' Hst Hlog. split; [|exact Hpos].
    assert (Hnx : next_msg nd' = S (count nd)) by (unfold next_msg; rewrite Hp; exact Hc).
    split; cbn [ss_parts ss_cfgs ss_nodes ss_chan].
    - exact G.
    - rewrite set_nth_length. apply (in_len _ _ V).
    - intros k ndk cfk Hk Hcfk. rewrite nth_set_nth in Hk by exact Hi. destruct (Nat.eqb_spec i k) as [->|Hne].
      + injection Hk as <-. congruence.
      + eapply in_node; eauto.
    - intros a b na nb' cfa Ha Hb Hcfa. rewrite nth_set_nth in Ha, Hb by exact Hi. split.
      + intros cs Hcs. destruct (gd_lt _ _ G a cfa b cs Hcfa (or_introl Hcs)) as [Hab Hbn].
        destruct (Nat.eqb_spec i a) as [<-|Hia], (Nat.eqb_spec i b) as [<-|Hib]; try contradiction.
        * (* receiver *)
          injection Ha as <-. assert (cfa = cf) by congruence. subst cfa. rewrite Hnx.
          rewrite S2 by (left; auto). eapply W3; eauto.
        * (* sender *)
          injection Hb as <-. rewrite Hc. destruct (in_chan _ _ V a i na nd cfa Ha Hnd Hcfa) as [Hch _]. destruct (Hch cs Hcs) as [Hle E].
          split; [lia|]. assert (Hout : In (a, cs) (sc_out cf)) by (apply (gd_match _ _ G i a cf cfa cs Hcf Hcfa); exact Hcs).
          rewrite (S1 a cs Hout). rewrite W2 by (left; auto). rewrite E. replace (S (S (count nd)) - next_msg na)%nat with (S (S (count nd) - next_msg na)) by lia.
          rewrite seq_snoc, map_app. f_equal. cbn [map]. f_equal. replace (next_msg na + (S (count nd) - next_msg na))%nat with (S (count nd)) by lia.
          apply map_ext_in. intros c Hcc. apply V1. eapply gd_rim; eauto.
        * rewrite S2 by (left; auto). rewrite W2 by (left; auto). eapply (in_chan _ _ V a b); eauto.
      + intros Hno.
        assert (E1 : ch1 b a = []).
        { destruct (Nat.eqb_spec i a) as [<-|Hia].
          - assert (cfa = cf) by congruence. subst cfa. rewrite W2 by (right; exact Hno).
            destruct (Nat.eqb_spec i b) as [<-|Hib]; [eapply (in_chan _ _ V i i); eauto|eapply (in_chan _ _ V i b); eauto].
          - rewrite W2 by (left; auto). destruct (Nat.eqb_spec i b) as [<-|Hib]; [eapply (in_chan _ _ V a i); eauto|eapply (in_chan _ _ V a b); eauto]. }
        rewrite S2; [exact E1|]. destruct (Nat.eq_dec b i) as [->|Hbi]; [|now left]. right. intros Hin. apply in_keys in Hin. destruct Hin as (cs & Hin).
        apply Hno. apply in_keys. exists cs. now apply (gd_match _ _ G i a cf cfa cs Hcf Hcfa).
    - intros b k l nk nl Hb Hk Hl Hle. rewrite nth_set_nth in Hk, Hl by exact Hi.
      assert (Hkold : exists k' nk', nth_error (ss_nodes st) k' = Some nk' /\ (2 * b + 1 <= pos nk')%nat).
      { destruct (Nat.eqb_spec i k) as [<-|Hne]; [|eauto]. injection Hk as <-. exists i, nd. split; [exact Hnd|].
        unfold pos in *. rewrite Hbal. rewrite Hc in Hle. destruct (Nat.le_gt_cases b (count nd)) as [Hb'|Hb']; [lia|]. exfalso.
        destruct Hb as (s & Hs1 & Hs2 & Hb). assert (Eb : b = S (count nd)) by (destruct (sn_bal nd'); lia).
        destruct (count_div nd' cf Hok') as [Em Ed]. rewrite Hc, <- Eb, Hb in Em, Ed. rewrite Nat.mod_mul in Em by lia. rewrite Nat.div_mul in Ed by lia.
        rewrite <- Em in Hbal'. specialize (Hbal' eq_refl). replace (sn_step nd') with s in Hbal' by lia. rewrite Hs2 in Hbal'. cbn in Hbal'.
        rewrite Hbal' in Hle. lia. }
      destruct Hkold as (k' & nk' & Hk' & Hle').
      destruct (Nat.eqb_spec i l) as [<-|Hne]; [injection Hl as <-; pose proof (in_bar _ _ V b k' i nk' nd Hb Hk' Hnd Hle'); lia|].
      eapply (in_bar _ _ V); eauto.
    - apply (in_cuts _ _ V).
    - intros k ndk s Hk Hs'. rewrite nth_set_nth in Hk by exact Hi. destruct (Nat.eqb_spec i k) as [<-|Hne].
      + injection Hk as <-. eapply (in_hist _ _ V); [exact Hnd|lia].
      + eapply (in_hist _ _ V); eauto.
    - intros k ndk Hk. rewrite nth_set_nth in Hk by exact Hi. destruct (Nat.eqb_spec i k) as [<-|Hne].
      + injection Hk as <-. exact Hlog.
      + eapply (in_log _ _ V); eauto. }
  pose proof (in_log _ _ V i nd Hnd) as Hlog.
  destruct (Nat.eqb_spec (S (sn_nano nd)) nanos) as [En|En].
  - assert (Hc : forall cur new bal log, count (mkSN (S (sn_step nd)) 0 cur new true bal log) = S (count nd)).
    { intros. unfold count. cbn [sn_step sn_nano]. replace (S (sn_step nd) - start)%nat with (S (sn_step nd - start)) by lia. cbn [Nat.mul]. lia. }
    apply Main; cbn [sn_pend sn_step sn_nano sn_bal sn_log]; auto.
    + split; cbn [sn_step sn_nano sn_bal sn_pend sn_cur]; [lia|lia|now left| | |discriminate].
      * intros Hb. split; [reflexivity|]. destruct (bal_due period (S (sn_step nd))); [reflexivity|discriminate].
      * intros c Hcc. rewrite Hc. now apply V2.
    + unfold pos. rewrite Hc, Hbal. cbn [sn_bal]. destruct (negb _); lia.
    + apply saw_snoc; auto; [lia| | |].
      * rewrite Nat.eqb_eq. tauto.
      * intros c. rewrite (in_hist _ _ V i nd (S (sn_step nd)) Hnd) by lia. eapply gd_cells; eauto.
      * intros c Hcc. rewrite (V2 c Hcc). f_equal. unfold count. replace (S (sn_step nd) - start)%nat with (S (sn_step nd - start)) by lia. cbn [Nat.mul]. lia.
  - assert (Hc : forall cur new bal log, count (mkSN (sn_step nd) (S (sn_nano nd)) cur new true bal log) = S (count nd)).
    { intros. unfold count. cbn [sn_step sn_nano]. lia. }
    apply Main; cbn [sn_pend sn_step sn_nano sn_bal sn_log]; auto; [| |discriminate].
    + split; cbn [sn_step sn_nano sn_bal sn_pend sn_cur]; [lia|lia|now right| | |discriminate].
      * rewrite Hbal. discriminate.
      * intros c Hcc. rewrite Hc. now apply V2.
    + unfold pos. rewrite Hc, Hbal. cbn [sn_bal]. lia.
Qed.

(** ** Load balancing *)

Lemma wait_all_spec g : forall cfs nodes i ch, length cfs = length nodes ->
  (forall k cf nd, nth_error cfs k = Some cf -> nth_error nodes k = Some nd ->
    NoDup (keys (sc_in cf)) /\
    (forall c, In c (sc_expanded cf) -> In c (sc_region cf) \/ exists j cs, In (j, cs) (sc_in cf) /\ In c cs) /\
    (forall c, In c (sc_region cf) -> sn_cur nd c = ser g c) /\
    (sn_pend nd = false -> forall c, In c (sc_expanded cf) -> sn_cur nd c = ser g c) /\
    (forall j cs, In (j, cs) (sc_in cf) -> ch j (i + k)%nat = if sn_pend nd then [map (ser g) cs] else [])) ->
  exists curs ch', wait_all cfs i nodes ch = Ok (curs, ch') /\ length curs = length nodes /\
    (forall k cf cur, nth_error cfs k = Some cf -> nth_error curs k = Some cur -> forall c, In c (sc_expanded cf) -> cur c = ser g c) /\
    (forall k cf j, nth_error cfs k = Some cf -> In j (keys (sc_in cf)) -> ch' j (i + k)%nat = []) /\
    (forall k cf j, nth_error cfs k = Some cf -> ~ In j (keys (sc_in cf)) -> ch' j (i + k)%nat = ch j (i + k)%nat) /\
    (forall j b, (b < i)%nat -> ch' j b = ch j b).
Proof.
  induction cfs as [|cf cfs IH]; intros [|nd nodes] i ch Hlen H; try discriminate.
  { exists [], ch. cbn. split; [reflexivity|]. split; [reflexivity|]. split; [intros [|k]; discriminate|]. split; [intros [|k]; discriminate|]. split; [intros [|k]; discriminate|auto]. }
  cbn [length] in Hlen. injection Hlen as Hlen. destruct (H O cf nd eq_refl eq_refl) as (Hnd & Hexp & Hown & Hgh & Hch). rewrite Nat.add_0_r in Hch.
  cbn [wait_all].
  assert (Hw : exists cur ch1, wait_ghosts cf i nd ch = Ok (cur, ch1) /\ (forall c, In c (sc_expanded cf) -> cur c = ser g c) /\
    (forall j, In j (keys (sc_in cf)) -> ch1 j i = []) /\ (forall a b, b <> i \/ ~ In a (keys (sc_in cf)) -> ch1 a b = ch a b)).
  { unfold wait_ghosts. destruct (sn_pend nd) eqn:Ep.
    - pose proof (load_ghosts_spec (ser g) i (sc_in cf) ch (sn_cur nd) Hnd) as L.
      assert (Hm : forall j cs, In (j, cs) (sc_in cf) -> ch j i = [] \/ exists ms, ch j i = map (ser g) cs :: ms).
      { intros j cs Hj. right. exists []. now apply Hch. }
      specialize (L Hm). destruct (load_ghosts (sc_in cf) i ch (sn_cur nd)) as [[cur ch1]| |].
      + destruct L as (L1 & L2 & L3 & L4). exists cur, ch1. split; [reflexivity|]. split; [|split; [|exact L4]].
        * intros c Hc. destruct (Hexp c Hc) as [Hr|(j & cs & Hj & Hcs)]; [apply L1; now apply Hown|eapply L2; eauto].
        * intros j Hj. apply in_keys in Hj. destruct Hj as (cs & Hj). pose proof (L3 j cs Hj) as E. rewrite (Hch j cs Hj) in E. congruence.
      + destruct L as (j & cs & Hj & E). rewrite (Hch j cs Hj) in E. discriminate.
      + contradiction.
    - exists (sn_cur nd), ch. split; [reflexivity|]. split; [exact (Hgh eq_refl)|]. split; [|auto].
      intros j Hj. apply in_keys in Hj. destruct Hj as (cs & Hj). now apply (Hch j cs). }
  destruct Hw as (cur & ch1 & -> & W1 & W2 & W3). destruct (IH nodes (S i) ch1 Hlen) as (curs & ch2 & -> & I1 & I2 & I3 & I4 & I5).
  { intros k cf' nd' Hk Hk'. destruct (H (S k) cf' nd' Hk Hk') as (H1 & H2 & H3 & H4 & H5). repeat (split; [assumption|]).
    intros j cs Hj. rewrite W3 by (left; lia). replace (S i + k)%nat with (i + S k)%nat by lia. now apply H5. }
  exists (cur :: curs), ch2. split; [reflexivity|]. split; [cbn; congruence|]. split; [|split; [|split]].
  - intros [|k] cf' cur' Hk Hk'; [injection Hk as <-; injection Hk' as <-; exact W1|eapply I2; eauto].
  - intros [|k] cf' j Hk Hj.
    + injection Hk as <-. rewrite Nat.add_0_r, I5 by lia. now apply W2.
    + replace (i + S k)%nat with (S i + k)%nat by lia. eapply I3; eauto.
  - intros [|k] cf' j Hk Hj.
    + injection Hk as <-. rewrite Nat.add_0_r, I5 by lia. apply W3. now right.
    + replace (i + S k)%nat with (S i + k)%nat by lia. rewrite (I4 k cf' j Hk Hj). apply W3. left. lia.
  - intros j b Hb. rewrite I5 by lia. apply W3. left. lia.
Qed.

(** The Region of some rows, see StripesConfig. *)
Definition rows_ok : Prop := forall s e, 0 <= s -> s < e -> e <= hd 0 dim ->
  exists r cs, fill_rows dim s e = Some r /\ region_coords r = Some cs /\ forall c, In c cs <-> in_grid dim c /\ s <= hd 0 c < e.

Lemma cuts_range parts : cuts n (hd 0 dim) parts -> forall i, (i <= n)%nat -> 0 <= nth i parts 0 <= hd 0 dim.
Proof using.
  clear.
  intros (_ & H0 & Hn & Hm).
  assert (Hlow : forall i, (i <= n)%nat -> 0 <= nth i parts 0).
  { induction i as [|i IH]; intros Hi; [lia|]. specialize (IH ltac:(lia)). specialize (Hm i ltac:(lia)). lia. }
  assert (Hhigh : forall m i, (i + m = n)%nat -> nth i parts 0 <= hd 0 dim).
  { induction m as [|m IH]; intros i Hi; [replace i with n by lia; lia|]. specialize (IH (S i) ltac:(lia)). specialize (Hm i ltac:(lia)). lia. }
  intros i Hi. split; [now apply Hlow|apply (Hhigh (n - i)%nat); lia].
Qed.

Lemma collect_spec g parts a b : rows_ok -> cuts n (hd 0 dim) parts -> 0 <= a -> b <= hd 0 dim -> forall curs k dst, (k + length curs = n)%nat ->
  (forall m cur, nth_error curs m = Some cur -> forall c, stripe_cells dim parts (k + m) c -> cur c = ser g c) ->
  (forall c, in_grid dim c -> a <= hd 0 c < b -> hd 0 c < nth k parts 0 -> dst c = ser g c) ->
  exists dst', collect_rows dim parts a b curs k dst = Some dst' /\
    forall c, in_grid dim c -> a <= hd 0 c < b -> hd 0 c < nth n parts 0 -> dst' c = ser g c.
Proof.
  intros Hrows Hcuts Ha Hb. induction curs as [|cur curs IH]; intros k dst Hk Hcur Hdst; cbn [collect_rows].
  { exists dst. split; [reflexivity|]. cbn [length] in Hk. rewrite Nat.add_0_r in Hk. subst k. exact Hdst. }
  cbn [length] in Hk. unfold row_start, row_end. pose proof (cuts_range parts Hcuts k ltac:(lia)) as Hr. pose proof (cuts_range parts Hcuts (S k) ltac:(lia)) as Hr'.
  destruct (Z.ltb_spec (Z.max a (nth k parts 0)) (Z.min b (nth (S k) parts 0))) as [Hlt|Hge].
  - destruct (Hrows (Z.max a (nth k parts 0)) (Z.min b (nth (S k) parts 0))) as (r & cs & -> & E2 & Hcs); [lia|lia|lia|]. cbn [obind]. rewrite E2. cbn [obind].
    destruct (load_save cs dst cur) as (dst1 & -> & L1 & L2). cbn [obind]. apply IH; [lia| |].
    + intros m cur' Hm c Hc. apply (Hcur (S m) cur' Hm). now replace (k + S m)%nat with (S k + m)%nat by lia.
    + intros c Hg Hab Hlt'. destruct (in_dec (list_eq_dec Z.eq_dec) c cs) as [Hin|Hin].
      * rewrite (L1 c Hin). apply (Hcur O cur eq_refl). rewrite Nat.add_0_r. apply Hcs in Hin. split; [exact Hg|]. lia.
      * rewrite (L2 c Hin). apply Hdst; auto. destruct (Z.lt_ge_cases (hd 0 c) (nth k parts 0)); [assumption|]. exfalso. apply Hin, Hcs. split; [exact Hg|lia].
  - apply IH; [lia| |].
    + intros m cur' Hm c Hc. apply (Hcur (S m) cur' Hm). now replace (k + S m)%nat with (S k + m)%nat by lia.
    + intros c Hg Hab Hlt'. apply Hdst; auto. lia.
Qed.

Lemma redistribute_spec g parts new_parts curs : rows_ok -> cuts n (hd 0 dim) parts -> cuts n (hd 0 dim) new_parts -> length curs = n ->
  (forall m cur, nth_error curs m = Some cur -> forall c, stripe_cells dim parts m c -> cur c = ser g c) ->
  forall cfs nodes i ch, length cfs = length nodes -> (i + length nodes = n)%nat ->
  (forall k cf, nth_error cfs k = Some cf -> NoDup (keys (sc_out cf))) ->
  exists nodes' ch', redistribute dim ini parts new_parts curs cfs i nodes ch = Some (nodes', ch') /\ length nodes' = length nodes /\
    (forall k nd', nth_error nodes' k = Some nd' -> exists nd, nth_error nodes k = Some nd /\
      sn_step nd' = sn_step nd /\ sn_nano nd' = sn_nano nd /\ sn_log nd' = sn_log nd /\ sn_bal nd' = true /\ sn_pend nd' = true /\
      forall c, stripe_cells dim new_parts (i + k) c -> sn_cur nd' c = ser g c) /\
    (forall k cf nd' j cs, nth_error cfs k = Some cf -> nth_error nodes' k = Some nd' -> In (j, cs) (sc_out cf) ->
      ch' (i + k)%nat j = ch (i + k)%nat j ++ [map (sn_cur nd') cs]) /\
    (forall k cf j, nth_error cfs k = Some cf -> ~ In j (keys (sc_out cf)) -> ch' (i + k)%nat j = ch (i + k)%nat j) /\
    (forall a j, (a < i)%nat -> ch' a j = ch a j).
Proof.
  intros Hrows Hcuts Hcuts' Hlc Hcur. induction cfs as [|cf cfs IH]; intros [|nd nodes] i ch Hlen Hi Hnd; try discriminate; cbn [redistribute].
  { exists [], ch. split; [reflexivity|]. split; [reflexivity|]. split; [intros [|k]; discriminate|]. split; [intros [|k]; discriminate|]. split; [intros [|k]; discriminate|auto]. }
  cbn [length] in *. injection Hlen as Hlen. unfold row_start, row_end.
  pose proof (cuts_range new_parts Hcuts' i ltac:(lia)) as Hr. pose proof (cuts_range new_parts Hcuts' (S i) ltac:(lia)) as Hr'.
  destruct (collect_spec g parts (nth i new_parts 0) (nth (S i) new_parts 0) Hrows Hcuts ltac:(lia) ltac:(lia) curs 0 ini) as (dst & -> & Hdst).
  { lia. } { exact Hcur. } { intros c Hg _ H. destruct Hcuts as (_ & H0 & _). rewrite H0 in H. exfalso. unfold in_grid in Hg. destruct dim as [|d0 dim']; destruct c as [|x c]; cbn in Hg; try contradiction; cbn [hd] in H; lia. }
  cbn [obind]. destruct (send_ghosts_spec dst i (sc_out cf) ch (Hnd O cf eq_refl)) as [S1 S2].
  destruct (IH nodes (S i) (send_ghosts (sc_out cf) i ch dst) Hlen ltac:(lia)) as (nodes' & ch' & -> & I1 & I2 & I3 & I4 & I5).
  { intros k cf' Hk. apply (Hnd (S k)). exact Hk. }
  cbn [obind]. do 2 eexists. split; [reflexivity|]. split; [cbn; congruence|]. split; [|split; [|split]].
  - intros [|k] nd' Hk.
    + injection Hk as <-. exists nd. cbn [sn_step sn_nano sn_log sn_bal sn_pend sn_cur nth_error]. repeat (split; [reflexivity|]). rewrite Nat.add_0_r.
      intros c [Hg Hc]. apply Hdst; auto. destruct Hcuts as (_ & _ & -> & _). lia.
    + replace (i + S k)%nat with (S i + k)%nat by lia. apply I2. exact Hk.
  - intros [|k] cf' nd' j cs Hk Hk' Hj.
    + injection Hk as <-. injection Hk' as <-. rewrite Nat.add_0_r. cbn [sn_cur]. rewrite I5 by lia. now apply S1.
    + replace (i + S k)%nat with (S i + k)%nat by lia. rewrite (I3 k cf' nd' j cs Hk Hk' Hj). f_equal. apply S2. left. lia.
  - intros [|k] cf' j Hk Hj.
    + injection Hk as <-. rewrite Nat.add_0_r. rewrite I5 by lia. apply S2. now right.
    + replace (i + S k)%nat with (S i + k)%nat by lia. rewrite (I4 k cf' j Hk Hj). apply S2. left. lia.
  - intros a j Ha. rewrite I5 by lia. apply S2. left. lia.
Qed.

(** *** Partitions *)

Lemma from_length a ws : length (workloads_from a ws) = S (length ws).
Proof. revert a. induction ws as [|w ws IH]; intros a; cbn; auto. Qed.

Lemma from_hd a ws : nth 0 (workloads_from a ws) 0 = a.
Proof. destruct ws; reflexivity. Qed.

Lemma from_last ws : forall a, nth (length ws) (workloads_from a ws) 0 = a + fold_right Z.add 0 ws.
Proof. induction ws as [|w ws IH]; intros a; cbn [length workloads_from nth fold_right]; [lia|]. rewrite IH. lia. Qed.

Lemma from_mono ws : Forall (fun w => 0 <= w) ws -> forall a i, (i < length ws)%nat -> nth i (workloads_from a ws) 0 <= nth (S i) (workloads_from a ws) 0.
Proof.
  induction 1 as [|w ws Hw Hws IH]; intros a [|i] Hi; cbn [length] in Hi; try lia; cbn [workloads_from].
  - cbn [nth]. fold (nth 0 (workloads_from (a + w) ws) 0). rewrite from_hd. lia.
  - specialize (IH (a + w) i ltac:(lia)). exact IH.
Qed.

Lemma workloads_cuts ws : length ws = n -> Forall (fun w => 0 <= w) ws -> fold_right Z.add 0 ws = hd 0 dim -> cuts n (hd 0 dim) (workloads_to_partitions ws).
Proof.
  intros Hl Hw Hs. unfold workloads_to_partitions. split; [rewrite from_length; congruence|]. split; [apply from_hd|]. split.
  - rewrite <- Hl, from_last. lia.
  - intros i Hi. apply from_mono; [exact Hw|lia].
Qed.

Lemma to_workloads_length parts : length (partitions_to_workloads parts) = (length parts - 1)%nat.
Proof. induction parts as [|a [|b rest] IH]; cbn in *; auto. rewrite IH. lia. Qed.

Lemma to_workloads_sum a rest : fold_right Z.add 0 (partitions_to_workloads (a :: rest)) = nth (length rest) (a :: rest) 0 - a.
Proof.
  revert a. induction rest as [|b rest IH]; intros a; [cbn; lia|].
  change (partitions_to_workloads (a :: b :: rest)) with ((b - a) :: partitions_to_workloads (b :: rest)). cbn [fold_right length]. rewrite IH.
  change (nth (S (length rest)) (a :: b :: rest) 0) with (nth (length rest) (b :: rest) 0). lia.
Qed.

Lemma to_workloads_nonneg parts : (forall i, (S i < length parts)%nat -> nth i parts 0 <= nth (S i) parts 0) -> Forall (fun w => 0 <= w) (partitions_to_workloads parts).
Proof.
  induction parts as [|a [|b rest] IH]; intros H; cbn [partitions_to_workloads]; constructor.
  - specialize (H O). cbn in H. lia.
  - apply IH. intros i Hi. apply (H (S i)). cbn in *. lia.
Qed.

Lemma to_from parts : parts <> [] -> workloads_from (nth 0 parts 0) (partitions_to_workloads parts) = parts.
Proof.
  induction parts as [|a [|b rest] IH]; intros H; [contradiction|reflexivity|]. cbn [partitions_to_workloads workloads_from nth].
  f_equal. replace (a + (b - a)) with b by lia. apply IH. discriminate.
Qed.

Lemma fold_add l : forall a, fold_left Z.add l a = a + fold_right Z.add 0 l.
Proof. induction l as [|x l IH]; intros a; cbn [fold_left fold_right]; [lia|]. rewrite IH. lia. Qed.

Lemma cuts_workloads parts : cuts n (hd 0 dim) parts ->
  length (partitions_to_workloads parts) = n /\ Forall (fun w => 0 <= w) (partitions_to_workloads parts) /\ fold_right Z.add 0 (partitions_to_workloads parts) = hd 0 dim.
Proof.
  intros (Hl & H0 & Hn & Hm). split; [rewrite to_workloads_length; lia|]. split; [apply to_workloads_nonneg; intros i Hi; apply Hm; lia|].
  destruct parts as [|a rest]; [discriminate|]. rewrite to_workloads_sum. cbn [length] in Hl. injection Hl as ->. cbn [nth] in H0. lia.
Qed.

Lemma validate_ok parts ws : cuts n (hd 0 dim) parts -> bal_valid n (hd 0 dim) (SBal ws) -> validate_loads ws (partitions_to_workloads parts) = true.
Proof.
  intros Hc (Hl & _ & Hs). destruct (cuts_workloads parts Hc) as (Hl' & _ & Hs'). unfold validate_loads. rewrite !fold_add. cbn.
  rewrite Hl, Hl', Nat.eqb_refl. cbn. apply Z.eqb_eq. lia.
Qed.

(** *** The collective operation *)

Context (sp : space).
Context (Hconf : forall parts, cuts n (hd 0 dim) parts -> exists cfs, stripe_configs sp dim parts n = Some cfs /\ good parts cfs).
Context (Hrows : rows_ok).

Lemma nth_ex {A} (l : list A) i : (i < length l)%nat -> exists x, nth_error l i = Some x.
Proof. intros H. apply nth_error_Some in H. destruct (nth_error l i); [eauto|contradiction]. Qed.

Lemma combine_nth {A B} (l : list A) (m : list B) k x : nth_error (combine l m) k = Some x <-> nth_error l k = Some (fst x) /\ nth_error m k = Some (snd x).
Proof.
  revert m k. induction l as [|a l IH]; intros [|b m] [|k]; cbn; try (split; [discriminate|intros []; discriminate]).
  - split; [intros [= <-]; auto|intros [[= ->] [= ->]]; now destruct x].
  - apply IH.
Qed.

Lemma balance_inv hist st ws : inv hist st -> (1 <= n)%nat -> bal_valid n (hd 0 dim) (SBal ws) ->
  (forall i nd, nth_error (ss_nodes st) i = Some nd -> sn_bal nd = false /\ (sn_step nd < max_steps)%nat) ->
  exists st' hist', stripe_balance sp dim n ini st ws = Ok st' /\ inv hist' st' /\
    forall i nd nd', nth_error (ss_nodes st) i = Some nd -> nth_error (ss_nodes st') i = Some nd' -> pos nd' = S (pos nd).
Proof.
  intros V Hn Hv Hall. pose proof (in_good _ _ V) as G. pose proof (in_len _ _ V) as Hlen. pose proof (gd_len _ _ G) as Hlc. pose proof (gd_cuts _ _ G) as Hcuts.
  destruct (nth_ex (ss_nodes st) 0) as (n0 & E0); [lia|]. destruct (nth_ex (ss_cfgs st) 0) as (c0 & F0); [lia|].
  assert (Hcf : forall i nd, nth_error (ss_nodes st) i = Some nd -> exists cf, nth_error (ss_cfgs st) i = Some cf /\ node_ok cf nd).
  { intros i nd Hi. destruct (nth_ex (ss_cfgs st) i) as (cf & Ecf).
    - assert (i < length (ss_nodes st))%nat by (apply nth_error_Some; congruence). lia.
    - exists cf. split; [exact Ecf|]. eapply in_node; eauto. }
  (* all at the same step *)
  assert (Hbar : forall i nd, nth_error (ss_nodes st) i = Some nd -> barrier (count nd) /\ pos nd = (2 * count nd)%nat /\ sn_nano nd = O /\ (start <= sn_step nd)%nat).
  { intros i nd Hi. destruct (Hcf i nd Hi) as (cf & Ecf & Ok1). destruct (Hall i nd Hi) as [Hb _]. destruct (no_bal _ _ Ok1 Hb) as [Hz Hd].
    pose proof (no_step _ _ Ok1). split; [|split; [|split; [exact Hz|lia]]].
    - exists (sn_step nd). split; [lia|]. split; [exact Hd|]. unfold count. lia.
    - unfold pos. rewrite Hb. lia. }
  set (g := count n0). assert (Hsame : forall i nd, nth_error (ss_nodes st) i = Some nd -> count nd = g).
  { intros i nd Hi. destruct (Hbar i nd Hi) as (B1 & P1 & _). destruct (Hbar O n0 E0) as (B0 & P0 & _). fold g in B0, P0.
    destruct (Nat.lt_trichotomy (count nd) g) as [H|[H|H]]; [|exact H|]; exfalso.
    - pose proof (in_bar _ _ V (count nd) O i n0 nd B1 E0 Hi). lia.
    - pose proof (in_bar _ _ V g i O nd n0 B0 Hi E0). lia. }
  assert (Hstep : forall i nd, nth_error (ss_nodes st) i = Some nd -> sn_step nd = sn_step n0).
  { intros i nd Hi. pose proof (Hsame i nd Hi) as H. destruct (Hbar i nd Hi) as (_ & _ & Hz & Hs). destruct (Hbar O n0 E0) as (_ & _ & Hz0 & Hs0). unfold g, count in H. rewrite Hz, Hz0 in H. nia. }
  unfold stripe_balance. rewrite (validate_ok _ ws Hcuts Hv). cbn [negb].
  (* waiting *)
  destruct (wait_all_spec g (ss_cfgs st) (ss_nodes st) 0 (ss_chan st)) as (curs & ch & -> & W1 & W2 & W3 & W4 & _); [lia| |].
  { intros k cf nd Hk Hk'. destruct (gd_nodup _ _ G k cf Hk) as (_ & _ & Hnd & _). pose proof (in_node _ _ V k nd cf Hk' Hk) as Ok1.
    split; [exact Hnd|]. split; [intros c; eapply gd_exp; eauto|]. split; [intros c Hc; rewrite (no_cur _ _ Ok1 c Hc); now rewrite (Hsame k nd Hk')|].
    split; [intros Hp c Hc; rewrite (no_ghost _ _ Ok1 Hp c Hc); now rewrite (Hsame k nd Hk')|].
    intros j cs Hj. cbn [Nat.add]. destruct (gd_lt _ _ G k cf j cs Hk (or_introl Hj)) as [_ Hjn]. destruct (nth_ex (ss_nodes st) j) as (nj & Ej); [lia|].
    destruct (in_chan _ _ V k j nd nj cf Hk' Ej Hk) as [Hch _]. destruct (Hch cs Hj) as [_ E]. rewrite E. unfold next_msg.
    rewrite (Hsame k nd Hk'), (Hsame j nj Ej). destruct (sn_pend nd); [replace (S g - g)%nat with 1%nat by lia; reflexivity|now rewrite Nat.sub_diag]. }
  assert (Hempty : forall i j, (i < n)%nat -> (j < n)%nat -> ch j i = []).
  { intros i j Hi Hj. destruct (nth_ex (ss_cfgs st) i) as (cf & Ecf); [lia|]. destruct (nth_ex (ss_nodes st) i) as (nd & End); [lia|].
    destruct (nth_ex (ss_nodes st) j) as (nj & Enj); [lia|]. destruct (in_dec Nat.eq_dec j (keys (sc_in cf))) as [Hk|Hk].
    - apply (W3 i cf j Ecf Hk).
    - pose proof (W4 i cf j Ecf Hk) as E. cbn [Nat.add] in E. rewrite E. apply (in_chan _ _ V i j nd nj cf End Enj Ecf). exact Hk. }
  cbn [Nat.add] in W3, W4.
  (* positions *)
  assert (Hbar' : forall nodes' : list (snode C), (forall i nd', nth_error nodes' i = Some nd' -> exists nd, nth_error (ss_nodes st) i = Some nd /\
      sn_step nd' = sn_step nd /\ sn_nano nd' = sn_nano nd /\ sn_bal nd' = true) ->
      (forall i nd', nth_error nodes' i = Some nd' -> count nd' = g /\ pos nd' = (2 * g + 1)%nat)).
  { intros nodes' H i nd' Hi. destruct (H i nd' Hi) as (nd & End & H1 & H2 & H3). pose proof (Hsame i nd End) as Hc. unfold pos, count in *. rewrite H1, H2, H3. lia. }
  destruct (list_eq_dec Z.eq_dec (workloads_to_partitions ws) (ss_parts st)) as [Heq|Hne].
  - (* nothing to be moved *)
    set (nodes' := map _ (combine curs (ss_nodes st))).
    assert (Hn' : forall i nd', nth_error nodes' i = Some nd' -> exists nd cur, nth_error (ss_nodes st) i = Some nd /\ nth_error curs i = Some cur /\
      nd' = mkSN (sn_step nd) (sn_nano nd) cur (sn_new nd) false true (sn_log nd)).
    { intros i nd' Hi. unfold nodes' in Hi. rewrite nth_error_map in Hi. destruct (nth_error (combine curs (ss_nodes st)) i) as [[cur nd]|] eqn:Ec; [|discriminate].
      cbn in Hi. injection Hi as <-. apply combine_nth in Ec. destruct Ec. eauto. }
    pose proof (Hbar' nodes') as HB. assert (HB' : forall i nd', nth_error nodes' i = Some nd' -> count nd' = g /\ pos nd' = (2 * g + 1)%nat).
    { apply HB. intros i nd' Hi. destruct (Hn' i nd' Hi) as (nd & cur & H1 & _ & ->). exists nd. auto. }
    clear HB. eexists _, hist. split; [reflexivity|]. split.
    + split; cbn [ss_parts ss_cfgs ss_nodes ss_chan].
      * exact G.
      * unfold nodes'. rewrite map_length, combine_length. lia.
      * intros i nd' cf Hi Hc. destruct (HB' i nd' Hi) as [Hg _]. destruct (Hn' i nd' Hi) as (nd & cur & H1 & H2 & ->). pose proof (in_node _ _ V i nd cf H1 Hc) as Ok1.
        assert (Hcur : forall c, In c (sc_expanded cf) -> cur c = ser g c) by (intros c; eapply W2; eauto).
        split; cbn [sn_step sn_nano sn_bal sn_pend sn_cur]; [apply (no_step _ _ Ok1)|apply (no_nano _ _ Ok1)|apply (no_end _ _ Ok1)|discriminate| |].
        -- intros c Hcc. rewrite Hg. apply Hcur. eapply gd_sub; eauto.
        -- intros _ c Hcc. rewrite Hg. now apply Hcur.
      * intros i j ni nj cf Hi Hj Hc. destruct (HB' i ni Hi) as [Hgi _], (HB' j nj Hj) as [Hgj _]. destruct (Hn' i ni Hi) as (nd & cur & H1 & H2 & ->).
        assert (Hin : (i < n)%nat) by (rewrite <- Hlen; apply nth_error_Some; congruence).
        assert (Hjn : (j < n)%nat) by (destruct (Hn' j nj Hj) as (ndj & _ & Hj' & _); rewrite <- Hlen; apply nth_error_Some; congruence).
        split; [|intros _; now apply Hempty]. intros cs Hcs. unfold next_msg. cbn [sn_pend]. rewrite Hgi, Hgj. split; [lia|]. rewrite Nat.sub_diag. now apply Hempty.
      * intros b i j ni nj Hb Hi Hj Hle. destruct (HB' i ni Hi) as [_ Hgi], (HB' j nj Hj) as [_ Hgj]. lia.
      * apply (in_cuts _ _ V).
      * intros i nd' s Hi Hs. destruct (Hn' i nd' Hi) as (nd & cur & H1 & _ & ->). cbn [sn_step] in Hs. eapply in_hist; eauto.
      * intros i nd' Hi. destruct (Hn' i nd' Hi) as (nd & cur & H1 & _ & ->). cbn [sn_step sn_log]. now apply (in_log _ _ V).
    + cbn [ss_nodes]. intros i nd nd' Hi Hi'. destruct (HB' i nd' Hi') as [_ ->]. destruct (Hbar i nd Hi) as (_ & -> & _). rewrite (Hsame i nd Hi). lia.
  - (* rows change their owners *)
    assert (Hcuts' : cuts n (hd 0 dim) (workloads_to_partitions ws)) by (apply workloads_cuts; apply Hv).
    destruct (Hconf _ Hcuts') as (cfs' & -> & G'). pose proof (gd_len _ _ G') as Hl'.
    destruct (redistribute_spec g (ss_parts st) (workloads_to_partitions ws) curs Hrows Hcuts Hcuts' (eq_trans W1 Hlen)) with (cfs := cfs') (nodes := ss_nodes st) (i := O) (ch := ch)
      as (nodes' & ch' & -> & R1 & R2 & R3 & R4 & _); [|lia|lia| |].
    { intros m cur Hm c Hc. destruct (nth_ex (ss_cfgs st) m) as (cf & Ecf); [assert (m < length curs)%nat by (apply nth_error_Some; unfold grid in *; rewrite Hm; discriminate); lia|].
      eapply W2; eauto. eapply (gd_sub _ _ G); [exact Ecf|]. apply (gd_cells _ _ G m cf c Ecf). exact Hc. }
    { intros k cf Hk. apply (gd_nodup _ _ G' k cf Hk). }
    cbn [Nat.add] in *.
    assert (HB' : forall i nd', nth_error nodes' i = Some nd' -> count nd' = g /\ pos nd' = (2 * g + 1)%nat).
    { apply Hbar'. intros i nd' Hi. destruct (R2 i nd' Hi) as (nd & H1 & H2 & H3 & _ & H4 & _). eauto 6. }
    eexists _, (fun s => if Nat.leb s (sn_step n0) then hist s else workloads_to_partitions ws). split; [reflexivity|]. split.
    + split; cbn [ss_parts ss_cfgs ss_nodes ss_chan].
      * exact G'.
      * lia.
      * intros i nd' cf Hi Hc. destruct (HB' i nd' Hi) as [Hg _]. destruct (R2 i nd' Hi) as (nd & H1 & H2 & H3 & H4 & H5 & H6 & H7). destruct (Hcf i nd H1) as (cf0 & _ & Ok1).
        split; [rewrite H2; apply (no_step _ _ Ok1)|rewrite H3; apply (no_nano _ _ Ok1)|rewrite H2, H3; apply (no_end _ _ Ok1)|congruence| |congruence].
        intros c Hcc. rewrite Hg. apply H7. now apply (gd_cells _ _ G' i cf c Hc).
      * intros i j ni nj cf Hi Hj Hc. destruct (HB' i ni Hi) as [Hgi _], (HB' j nj Hj) as [Hgj _]. destruct (R2 i ni Hi) as (nd & H1 & _ & _ & _ & _ & H6 & _).
        assert (Hin : (i < n)%nat) by (rewrite <- Hlen; apply nth_error_Some; congruence).
        assert (Hjn : (j < n)%nat) by (rewrite <- Hlen, <- R1; apply nth_error_Some; congruence).
        destruct (nth_ex cfs' j) as (cfj & Ecfj); [lia|]. destruct (R2 j nj Hj) as (ndj & _ & _ & _ & _ & _ & _ & Hvj).
        split.
        -- intros cs Hcs. unfold next_msg. rewrite H6, Hgi, Hgj. split; [lia|]. replace (S g - g)%nat with 1%nat by lia. cbn [seq map].
           assert (Hout : In (i, cs) (sc_out cfj)) by (apply (gd_match _ _ G' j i cfj cf cs Ecfj Hc); exact Hcs).
           rewrite (R3 j cfj nj i cs Ecfj Hj Hout), Hempty by lia. cbn [app]. f_equal. apply map_ext_in. intros c Hcc. apply Hvj.
           apply (gd_cells _ _ G' j cfj c Ecfj). apply (gd_own _ _ G' j cfj c Ecfj). left. eapply (gd_rim _ _ G'); eauto.
        -- intros Hno. rewrite (R4 j cfj i Ecfj); [now apply Hempty|]. intros Hk. apply in_keys in Hk. destruct Hk as (cs & Hk). apply Hno. apply in_keys. exists cs.
           now apply (gd_match _ _ G' j i cfj cf cs Ecfj Hc).
      * intros b i j ni nj Hb Hi Hj Hle. destruct (HB' i ni Hi) as [_ Hgi], (HB' j nj Hj) as [_ Hgj]. lia.
      * intros s. destruct (Nat.leb s (sn_step n0)); [apply (in_cuts _ _ V)|exact Hcuts'].
      * intros i nd' s Hi Hs. destruct (R2 i nd' Hi) as (nd & H1 & H2 & _). rewrite H2, (Hstep i nd H1) in Hs. destruct (Nat.leb_spec s (sn_step n0)); [lia|reflexivity].
      * intros i nd' Hi. destruct (R2 i nd' Hi) as (nd & H1 & H2 & _ & H4 & _). rewrite H2, H4. pose proof (in_log _ _ V i nd H1) as [L1 L2]. split; [exact L1|].
        intros s last cs gg Hin. destruct (L2 s last cs gg Hin) as (A1 & A2 & A3). split; [exact A1|]. split; [exact A2|].
        assert (Hs : (s <= sn_step n0)%nat).
        { assert (In s (finished_steps (sn_log nd))) by (unfold finished_steps; apply in_flat_map; eexists; split; [exact Hin|now left]).
          rewrite L1 in H. apply in_seq in H. rewrite (Hstep i nd H1) in H. destruct (Hbar i nd H1) as (_ & _ & _ & Hs). rewrite (Hstep i nd H1) in Hs. lia. }
        intros c. destruct (Nat.leb_spec s (sn_step n0)); [apply A3|lia].
    + cbn [ss_nodes]. intros i nd nd' Hi Hi'. destruct (HB' i nd' Hi') as [_ ->]. destruct (Hbar i nd Hi) as (_ & -> & _). rewrite (Hsame i nd Hi). lia.
Qed.

End Dyn.
