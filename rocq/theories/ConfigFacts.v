(** The configuration of the nodes is fit for the simulation. *)
From Verif Require Import Base RegionSpec RegionModel RegionRep RegionIterModel RegionStreaks RegionOpsModel
  RegionOps CoordModel CoordSpec CoordFacts HaloSpec PartitionSpec PartitionManagerModel HaloFacts
  PartitionManagerSpec PartitionManagerFacts PartitionManagerProps PatchModel AdapterModel StepperModel StepperSpec StepperFacts RegionGeometry GeometryProps.
From Coq Require Import Sorted.

Lemma region_coords_nodup d r : rvalid d r -> exists cs, region_coords r = Some cs /\ (forall c, In c cs <-> inr d r c) /\ NoDup cs.
Proof.
  intros Hr. destruct (streaks_valid d r Hr) as (l & Hok & Hin & El & _). unfold region_coords. rewrite El. cbn [option_map].
  eexists. split; [reflexivity|]. split; [|apply sorted_NoDup; now apply (coords_sorted d)]. intros c. rewrite in_flat_map. unfold inr. fold (rin r c). split.
  - intros (s & Hs & Hc). assert (Hlen : length c = S d).
    { destruct Hok as [_ Hf]. rewrite Forall_forall in Hf. specialize (Hf s Hs). apply streak_coords_in in Hc.
      destruct Hf as [Hf _]. unfold in_streak in Hc. destruct Hc as (x & -> & _). rewrite app_length. cbn. lia. }
    split; [exact Hlen|]. apply Hin; [exact Hlen|]. exists s. split; [exact Hs|]. now apply streak_coords_in.
  - intros [Hlen Hc]. apply Hin in Hc; [|exact Hlen]. destruct Hc as (s & Hs & Hc). exists s. split; [exact Hs|]. now apply streak_coords_in.
Qed.

Lemma region_coords_spec d r : rvalid d r -> exists cs, region_coords r = Some cs /\ forall c, In c cs <-> inr d r c.
Proof. intros Hr. destruct (region_coords_nodup d r Hr) as (cs & E & H & _). eauto. Qed.

Lemma mapo_ok {A B} (f : A -> option B) (l : list A) :
  (forall a, In a l -> exists b, f a = Some b) ->
  exists m, mapo f l = Some m /\ length m = length l /\
    forall i a, nth_error l i = Some a -> exists b, f a = Some b /\ nth_error m i = Some b.
Proof. apply (mapo_spec O (fun _ => True) O (fun _ => None)). intros. lia. Qed.

Lemma coords_list d (P : nat -> coord -> Prop) l :
  (forall e r, nth_error l e = Some r -> rvalid d r /\ forall c, inr d r c <-> P e c) ->
  exists m, mapo region_coords l = Some m /\ forall e, (e < length l)%nat -> NoDup (nth e m []) /\ forall c, (In c (nth e m []) <-> P e c).
Proof.
  intros H. destruct (mapo_ok region_coords l) as (m & Em & Lm & Hm).
  { intros r Hr. apply In_nth_error in Hr. destruct Hr as (e & Er). destruct (H e r Er) as [V _]. destruct (region_coords_spec d r V) as (cs & E & _). eauto. }
  exists m. split; [exact Em|]. intros e He. destruct (nth_error l e) as [r|] eqn:Er; [|apply nth_error_None in Er; lia].
  destruct (Hm e r Er) as (cs & Ecs & En). destruct (H e r Er) as [V HP]. destruct (region_coords_nodup d r V) as (cs' & E' & Hc & Hnd).
  rewrite Ecs in E'. injection E' as <-. apply nth_error_nth with (d := []) in En. rewrite En. split; [exact Hnd|]. intros c. now rewrite <- HP, <- Hc.
Qed.

Lemma link_ends_spec d (Q : nat -> coord -> Prop) m :
  (forall j v, In (j, v) m -> exists r, last_region v = Some r /\ rvalid d r /\ (forall c, inr d r c <-> Q j c) /\ exists c, Q j c) ->
  exists l, link_ends m = Some l /\ map fst l = map fst m /\
    (forall j cs, In (j, cs) l -> exists v r, In (j, v) m /\ last_region v = Some r /\ region_coords r = Some cs) /\
    (forall j v r, In (j, v) m -> last_region v = Some r -> exists cs, region_coords r = Some cs /\ In (j, cs) l) /\
    (forall j cs c, In (j, cs) l -> (In c cs <-> Q j c)).
Proof.
  induction m as [|[j v] m IH]; intros H; cbn [link_ends].
  - exists []. split; [reflexivity|]. split; [reflexivity|]. split; [intros ? ? []|]. split; [intros ? ? ? []|intros ? ? ? []].
  - destruct (H j v (or_introl eq_refl)) as (r & Er & V & HQ & c0 & Hc0). rewrite Er. cbn [obind].
    destruct IH as (l & El & Ef & H1 & H2 & H3); [intros; apply H; now right|]. rewrite El. cbn [obind].
    assert (Hne : reg_is_empty r = false) by (apply (nonempty_inr d r V); exists c0; now apply HQ). rewrite Hne.
    destruct (region_coords_spec d r V) as (cs & Ecs & Hcs). rewrite Ecs. cbn [obind].
    exists ((j, cs) :: l). split; [reflexivity|]. split; [cbn; now rewrite Ef|]. split; [|split].
    + intros j' cs' [Hx|Hx].
      * injection Hx as <- <-. exists v, r. split; [now left|]. auto.
      * destruct (H1 j' cs' Hx) as (v' & r' & K1 & K2). exists v', r'. split; [now right|]. exact K2.
    + intros j' v' r' [Hx|Hx] Hr'.
      * injection Hx as <- <-. rewrite Er in Hr'. injection Hr' as <-. exists cs. split; [exact Ecs|now left].
      * destruct (H2 j' v' r' Hx Hr') as (cs' & K1 & K2). exists cs'. split; [exact K1|now right].
    + intros j' cs' c [Hx|Hx].
      * injection Hx as <- <-. rewrite Hcs. apply HQ.
      * now apply H3.
Qed.

Section Config.
Context (d : nat) (sp : space) (I : coord -> Prop) (E : neigh) (w : nat).
Context (L : space_laws d sp I E w) (Hw : (1 <= w)%nat).
Context (n : nat) (part : nat -> option indices).
Context (Hcover : exact_cover d n part I).
Context (nb : coord -> list (option coord)) (Hreads : reads_within I E nb).

Notation own i := (cells d part i).

Lemma cover_def : all_defined d n part.
Proof. apply Hcover. Qed.

Lemma cover_ins : forall k c, (k < n)%nat -> cells d part k c -> I c.
Proof. intros k c Hk Hc. destruct Hcover as (_ & _ & H). apply H. eauto. Qed.

(** The configuration of node [i]. *)
Record config_spec (i : nat) (cf : node_cfg) : Prop := {
  cs_w : cf_w cf = w;
  cs_rim : forall t c, (t <= w)%nat -> (rim cf t c <-> grown E (w - t) (is_rim d I E w part i) c);
  cs_inner : forall t c, (t <= w)%nat -> (inner cf t c <-> grown E (w - t) (is_kernel d I E w part i) c);
  cs_vol : forall c, In c (cf_vol cf) <-> is_kernel d I E w part i c /\ grown E w (is_rim d I E w part i) c;
  cs_own : forall c, own i c <-> is_rim d I E w part i c \/ is_kernel d I E w part i c;
  cs_in_sorted : StronglySorted lt (map fst (cf_in cf));
  cs_out_sorted : StronglySorted lt (map fst (cf_out cf));
  cs_in : forall j cs c, In (j, cs) (cf_in cf) -> (In c cs <-> need d E part i j w c);
  cs_out : forall j cs c, In (j, cs) (cf_out cf) -> (In c cs <-> need d E part j i w c);
  cs_in_frag : forall j, (j < n)%nat -> j <> i -> forall c, need d E part i j w c -> exists cs, In (j, cs) (cf_in cf);
  cs_in_lt : forall j cs, In (j, cs) (cf_in cf) -> j <> i /\ (j < n)%nat;
  cs_out_lt : forall j cs, In (j, cs) (cf_out cf) -> j <> i /\ (j < n)%nat;
  cs_nodup : forall t, (t <= w)%nat -> NoDup (rim_at cf t) /\ NoDup (inner_at cf t);
  cs_own_list : NoDup (cf_own cf) /\ forall c, In c (cf_own cf) <-> own i c;
  cs_outer_list : NoDup (cf_outer cf) /\ forall c, In c (cf_outer cf) <-> grown E w (own i) c /\ ~ own i c
}.

(** Links come from fragments. *)
Lemma config_ok i : (i < n)%nat -> exists cf p g, node_config sp part w n i = Some cf /\ setup_node sp part w n i = Some (p, g) /\
  config_spec i cf /\ ghosts_spec d I E w n part i g /\
  (forall j cs, In (j, cs) (cf_in cf) <-> exists v r, frag (g_outer g) j = Some v /\ last_region v = Some r /\ region_coords r = Some cs) /\
  (forall j cs, In (j, cs) (cf_out cf) <-> exists v r, frag (g_inner g) j = Some v /\ last_region v = Some r /\ region_coords r = Some cs).
Proof.
  intros Hi. destruct (setup_spec d sp I E w L n part cover_def cover_ins i Hi) as (p & g & Eg & P & G).
  destruct (coords_list d _ _ (ps_rim d I E w part i p P)) as (rims & Er & Hrim). rewrite (ps_rim_len d I E w part i p P) in Hrim.
  destruct (coords_list d _ _ (ps_inner d I E w part i p P)) as (inn & En & Hinn). rewrite (ps_inner_len d I E w part i p P) in Hinn.
  destruct (ps_vol d I E w part i p P) as [Vv Hv]. destruct (region_coords_spec d _ Vv) as (vol & Ev & Hvol).
  destruct (link_ends_spec d (fun j => need d E part i j w) (g_outer g)) as (inl & Ei & Fi & I1 & I2 & I3).
  { intros j v Hjv. destruct (gs_outer_in d I E w n part i g G j v Hjv) as (Hj & Hne & Hf).
    pose proof (gs_outer d I E w n part i g G j Hj) as F. rewrite (proj2 (Nat.eqb_neq j i) Hne), Hf in F.
    destruct (frag_last d I w n part cover_ins _ _ F) as (b & Eb & Vb & Hb). exists b. split; [exact Eb|]. split; [exact Vb|]. split; [exact Hb|]. apply F. }
  destruct (link_ends_spec d (fun j => need d E part j i w) (g_inner g)) as (outl & Eo & Fo & O1 & O2 & O3).
  { intros j v Hjv. destruct (gs_inner_in d I E w n part i g G j v Hjv) as (Hj & Hne & Hf).
    pose proof (gs_inner d I E w n part i g G j Hj) as F. rewrite (proj2 (Nat.eqb_neq j i) Hne), Hf in F.
    destruct (frag_last d I w n part cover_ins _ _ F) as (b & Eb & Vb & Hb). exists b. split; [exact Eb|]. split; [exact Vb|]. split; [exact Hb|]. apply F. }
  destruct (nth_error (pm_own p) 0) as [ownr|] eqn:Eown; [|apply nth_error_None in Eown; rewrite (ps_own_len d I E w part i p P) in Eown; lia].
  destruct (ps_own d I E w part i p P O ownr Eown) as [Vown Hown]. destruct (region_coords_nodup d ownr Vown) as (owncs & Eoc & Hoc & Noc).
  destruct (ps_outer d I E w part i p P) as [Vout Hout]. destruct (region_coords_nodup d _ Vout) as (outcs & Eout & Houtc & Nout).
  exists (mkCfg w rims inn vol inl outl owncs outcs), p, g. split.
  { unfold node_config. rewrite Eg. cbn [obind]. rewrite Er. cbn [obind]. rewrite En. cbn [obind]. rewrite Ev. cbn [obind].
    rewrite Ei. cbn [obind]. rewrite Eo. cbn [obind]. rewrite Eown. cbn [obind]. rewrite Eoc. cbn [obind]. rewrite Eout. reflexivity. }
  assert (Hfi : forall m j v, frag m j = Some v -> In (j, v) m).
  { intros m j v H. unfold frag in H. destruct (find _ _) as [(j', v')|] eqn:Ef; [|discriminate]. cbn in H. injection H as ->.
    apply find_some in Ef. destruct Ef as [Ef1 Ef2]. cbn in Ef2. apply Nat.eqb_eq in Ef2. now subst. }
  split; [exact Eg|]. split; [|split; [exact G|split]].
  - split; cbn [cf_w cf_vol cf_in cf_out cf_own cf_outer].
    + reflexivity.
    + intros t c Ht. unfold rim, rim_at. cbn [cf_rims]. apply Hrim. lia.
    + intros t c Ht. unfold inner, inner_at. cbn [cf_inner]. apply Hinn. lia.
    + intros c. rewrite Hvol. apply Hv.
    + intros c. split; [intros Hc; apply (rim_or_kernel d I E w n part i p c Hi P Hc)|intros [H|H]; apply H].
    + rewrite Fi. apply (gs_outer_sorted d I E w n part i g G).
    + rewrite Fo. apply (gs_inner_sorted d I E w n part i g G).
    + exact I3.
    + exact O3.
    + intros j Hj Hne c Hc. pose proof (gs_outer d I E w n part i g G j Hj) as F. rewrite (proj2 (Nat.eqb_neq j i) Hne) in F.
      destruct (frag (g_outer g) j) as [v|] eqn:Ef; [|exfalso; now apply (F c)].
      destruct (frag_last d I w n part cover_ins _ _ F) as (b & Eb & _). destruct (I2 j v b (Hfi _ _ _ Ef) Eb) as (cs & _ & Hcs). eauto.
    + intros j cs Hjc. destruct (I1 j cs Hjc) as (v & r & Hv' & _). destruct (gs_outer_in d I E w n part i g G j v Hv') as (Hj & Hne & _). auto.
    + intros j cs Hjc. destruct (O1 j cs Hjc) as (v & r & Hv' & _). destruct (gs_inner_in d I E w n part i g G j v Hv') as (Hj & Hne & _). auto.
    + intros t Ht. unfold rim_at, inner_at. cbn [cf_rims cf_inner]. split; [apply Hrim; lia|apply Hinn; lia].
    + split; [exact Noc|]. intros c. rewrite Hoc, Hown. apply grown_0.
    + split; [exact Nout|]. intros c. rewrite Houtc. apply Hout.
  - intros j cs. cbn [cf_in]. split.
    + intros Hjc. destruct (I1 j cs Hjc) as (v & r & Hv' & Hr). exists v, r. split; [|exact Hr]. apply (gs_outer_in d I E w n part i g G j v Hv').
    + intros (v & r & Hf & Hr & Hc). destruct (I2 j v r (Hfi _ _ _ Hf) Hr) as (cs' & E1 & E2). congruence.
  - intros j cs. cbn [cf_out]. split.
    + intros Hjc. destruct (O1 j cs Hjc) as (v & r & Hv' & Hr). exists v, r. split; [|exact Hr]. apply (gs_inner_in d I E w n part i g G j v Hv').
    + intros (v & r & Hf & Hr & Hc). destruct (O2 j v r (Hfi _ _ _ Hf) Hr) as (cs' & E1 & E2). congruence.
Qed.

Lemma sorted_nodup l : StronglySorted lt l -> NoDup l.
Proof.
  induction 1 as [|x l Hs IH Hx]; constructor; auto. intros Hin. rewrite Forall_forall in Hx. specialize (Hx x Hin). lia.
Qed.

Lemma grown_sub k m i (P : coord -> Prop) c : (i < n)%nat -> (forall c, P c -> own i c) -> (k <= m)%nat -> grown E k P c -> grown E m P c.
Proof.
  intros Hi HP Hkm (c0 & H0 & Hwk). exists c0. split; [exact H0|]. eapply walk_more; eauto. eapply cover_ins; eauto.
Qed.

(** All nodes together. *)
Lemma configs_ok : exists cfs, configs sp part w n = Some cfs /\ length cfs = n /\
  (forall i cf, nth_error cfs i = Some cf -> (i < n)%nat /\ config_spec i cf) /\
  (forall i j cfi cfj cs, nth_error cfs i = Some cfi -> nth_error cfs j = Some cfj -> (In (j, cs) (cf_out cfi) <-> In (i, cs) (cf_in cfj))).
Proof.
  destruct (mapo_ok (node_config sp part w n) (seq 0 n)) as (cfs & Ec & Lc & Hc).
  { intros i Hi. apply in_seq in Hi. destruct (config_ok i) as (cf & _ & _ & Ecf & _); [lia|]. eauto. }
  rewrite seq_length in Lc. exists cfs. split; [exact Ec|]. split; [exact Lc|].
  assert (Hnth : forall i cf, nth_error cfs i = Some cf -> (i < n)%nat /\ node_config sp part w n i = Some cf).
  { intros i cf H. assert (Hi : (i < n)%nat) by (rewrite <- Lc; apply nth_error_Some; congruence). split; [exact Hi|].
    destruct (Hc i i) as (b & Eb & En).
    { rewrite nth_error_nth' with (d := O) by (rewrite seq_length; exact Hi). now rewrite seq_nth. }
    congruence. }
  split.
  - intros i cf H. destruct (Hnth i cf H) as [Hi Ecf]. split; [exact Hi|]. destruct (config_ok i Hi) as (cf' & _ & _ & E' & _ & S & _). congruence.
  - intros i j cfi cfj cs Hci Hcj. destruct (Hnth i cfi Hci) as [Hi Ei]. destruct (Hnth j cfj Hcj) as [Hj Ej].
    destruct (config_ok i Hi) as (cf1 & p1 & g1 & E1 & _ & S1 & G1 & _ & Ho). destruct (config_ok j Hj) as (cf2 & p2 & g2 & E2 & _ & S2 & G2 & Hin & _).
    assert (cf1 = cfi) by congruence. assert (cf2 = cfj) by congruence. subst cf1 cf2. rewrite Ho, Hin.
    assert (Heq : frag (g_inner g1) j = frag (g_outer g2) i).
    { pose proof (gs_inner d I E w n part i g1 G1 j Hj) as F1. pose proof (gs_outer d I E w n part j g2 G2 i Hi) as F2.
      destruct (Nat.eqb_spec j i) as [->|Hne].
      - rewrite Nat.eqb_refl in F2. congruence.
      - rewrite (proj2 (Nat.eqb_neq i j)) in F2 by auto. eapply (frag_unique d w n); eassumption. }
    rewrite Heq. reflexivity.
Qed.

Context {C : Type} (steerers : list (adapter * @action C)).
Context (Hsym : symmetric E \/ (w <= 2)%nat /\ steerers = []).

Lemma spec_cfg_ok i cf : (i < n)%nat -> config_spec i cf -> cfg_ok nb I steerers w cf.
Proof.
  intros Hi S.
  assert (HPr : forall c, is_rim d I E w part i c -> own i c) by (intros c H; apply H).
  assert (HPk : forall c, is_kernel d I E w part i c -> own i c) by (intros c H; apply H).
  assert (Hgi : forall k (P : coord -> Prop) c, (forall c, P c -> own i c) -> grown E k P c -> I c).
  { intros k P c HP (c0 & H0 & Hwk). eapply walk_inside; eauto. eapply cover_ins; eauto. }
  assert (Hstep : forall Q k c c', grown E k Q c -> E c c' -> grown E (Datatypes.S k) Q c').
  { intros Q k c c' (c0 & H0 & H1) H2. exists c0. split; auto. replace (Datatypes.S k) with (k + 1)%nat by lia. eapply walk_trans; eauto. apply (proj2 (walk_one E _ _) H2). }
  assert (Hhalo : forall c, grown E w (own i) c -> own i c \/ halo cf c).
  { intros c Hc. destruct (own_dec d n part cover_def i c Hi) as [Ho|Ho]; [auto|]. right.
    assert (HIc : I c) by (apply (Hgi w (own i)); auto). destruct Hcover as (_ & _ & Hcov). apply Hcov in HIc.
    destruct HIc as (j & Hj & Hc'). assert (Hne : j <> i) by (intros ->; contradiction).
    assert (Hneed : need d E part i j w c) by (split; auto). destruct (cs_in_frag i cf S j Hj Hne c Hneed) as (cs & Hcs).
    exists j, cs. split; [exact Hcs|]. now apply (cs_in i cf S j cs c Hcs). }
  assert (Hrw : forall c, rim cf w c <-> is_rim d I E w part i c).
  { intros c. rewrite (cs_rim i cf S) by lia. rewrite Nat.sub_diag. apply grown_0. }
  assert (Hkw : forall c, inner cf w c <-> is_kernel d I E w part i c).
  { intros c. rewrite (cs_inner i cf S) by lia. rewrite Nat.sub_diag. apply grown_0. }
  assert (Hparts : forall c, own i c \/ halo cf c -> inner cf w c \/ rim cf w c \/ halo cf c).
  { intros c [H|H]; [|auto]. apply (cs_own i cf S) in H. rewrite Hrw, Hkw. tauto. }
  split.
  - apply (cs_w i cf S).
  - intros t c c' Ht H1 H2. rewrite (cs_rim i cf S) in * by lia. replace (w - t)%nat with (Datatypes.S (w - Datatypes.S t)) by lia.
    eapply Hstep; [exact H1|]. apply Hreads; [|exact H2]. eapply Hgi; [|exact H1]. exact HPr.
  - intros t c c' Ht H1 H2. rewrite (cs_inner i cf S) in * by lia. replace (w - t)%nat with (Datatypes.S (w - Datatypes.S t)) by lia.
    eapply Hstep; [exact H1|]. apply Hreads; [|exact H2]. eapply Hgi; [|exact H1]. exact HPk.
  - intros t c Ht H. rewrite (cs_rim i cf S) in H by lia. eapply Hgi; [|exact H]. exact HPr.
  - intros t c Ht H. rewrite (cs_inner i cf S) in H by lia. eapply Hgi; [|exact H]. exact HPk.
  - intros t c Ht H. rewrite (cs_inner i cf S) in * by lia. eapply grown_sub; [exact Hi|exact HPk| |exact H]. lia.
  - intros t c Ht H. rewrite (cs_rim i cf S) in * by lia. eapply grown_sub; [exact Hi|exact HPr| |exact H]. lia.
  - intros c H. apply Hkw. now apply (cs_vol i cf S).
  - intros c H1 H2. apply Hkw in H1. apply Hrw in H2. destruct H1 as [_ H1], H2 as [_ H2]. contradiction.
  - intros c H. rewrite (cs_rim i cf S) in H by lia. rewrite Nat.sub_0_r in H. apply Hparts, Hhalo.
    destruct H as (c0 & H0 & H1). exists c0. auto.
  - intros c H. rewrite (cs_inner i cf S) in H by lia. rewrite Nat.sub_0_r in H. apply Hparts, Hhalo.
    destruct H as (c0 & H0 & H1). exists c0. auto.
  - intros j cs c Hj Hc. apply Hrw. apply (cs_out i cf S j cs c Hj) in Hc. destruct (cs_out_lt i cf S j cs Hj) as [Hne Hjn].
    destruct Hcover as (_ & Hdis & _).
    eapply (need_in_rim d sp I E w L n part cover_def cover_ins i j w c); auto.
  - intros t c H1 H2 H3 Ht H4. rewrite (cs_rim i cf S) in H4 by lia. destruct Hsym as [Hs|Hs].
    + rewrite (cs_inner i cf S) in H1 by lia. rewrite Nat.sub_0_r in H1.
      assert (Ho : own i c) by (apply (kernel_stays d sp I E w L n part cover_def cover_ins i w c Hs Hi); auto).
      apply (cs_own i cf S) in Ho. destruct Ho as [Ho|Ho]; [apply H2; now apply Hrw|]. apply H3. apply (cs_vol i cf S). split; [exact Ho|].
      eapply grown_sub; [exact Hi|exact HPr| |exact H4]. lia.
    + destruct Hs as [Hs _]. replace (w - t)%nat with O in H4 by lia. apply (proj1 (grown_0 _ _ _)) in H4. apply H2. now apply Hrw.
  - intros Hne c H1 H2 H3 H4. destruct Hsym as [Hs|[_ Hs]]; [|contradiction]. rewrite (cs_rim i cf S) in H4 by lia.
    rewrite (cs_inner i cf S) in H1 by lia. rewrite Nat.sub_0_r in H1, H4.
    assert (Ho : own i c) by (apply (kernel_stays d sp I E w L n part cover_def cover_ins i w c Hs Hi); auto).
    apply (cs_own i cf S) in Ho. destruct Ho as [Ho|Ho]; [apply H2; now apply Hrw|]. apply H3. apply (cs_vol i cf S). auto.
  - apply sorted_nodup. apply (cs_in_sorted i cf S).
  - apply sorted_nodup. apply (cs_out_sorted i cf S).
  - intros t Ht. now apply (cs_nodup i cf S).
  - intros t Ht. now apply (cs_nodup i cf S).
  - apply (cs_own_list i cf S).
  - apply (cs_outer_list i cf S).
  - intros c. rewrite (proj2 (cs_own_list i cf S)), Hrw, Hkw. rewrite (cs_own i cf S). tauto.
  - intros c (j & cs & Hj & Hc). rewrite (proj2 (cs_outer_list i cf S)), (proj2 (cs_own_list i cf S)).
    destruct (cs_in_lt i cf S j cs Hj) as [Hne Hjn]. apply (cs_in i cf S j cs c Hj) in Hc. destruct Hc as [Hc1 Hc2].
    assert (Hno : ~ own i c).
    { intros Ho. apply Hne. destruct Hcover as (_ & Hdis & _). apply (Hdis j i c); auto. }
    auto.
  - intros c. rewrite (proj2 (cs_outer_list i cf S)), (proj2 (cs_own_list i cf S)). tauto.
Qed.

End Config.
