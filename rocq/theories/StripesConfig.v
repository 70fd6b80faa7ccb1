(** Facts on StripingSimulator: the regions of the nodes. *)
From Verif Require Import Base ListFacts CoordModel CoordSpec RegionSpec RegionModel RegionRep RegionIterModel RegionStreaks RegionOpsModel RegionOps CoordFacts
  RegionHistory RegionHist RegionReach PartitionSpec PartitionManagerModel PartitionManagerFacts HaloSpec HaloFacts
  PatchModel PatchFacts AdapterModel StepperModel StepperSpec StepperFacts ConfigFacts StripesModel StripesSpec StripesFacts.

Lemma prod_pos l : Forall (fun x => 0 < x) l -> 1 <= prod l.
Proof. induction 1 as [|x l Hx Hl IH]; cbn [prod]; nia. Qed.

Lemma removelast_prod l : Forall (fun x => 0 < x) l -> 1 <= prod (removelast l) <= prod l.
Proof.
  induction 1 as [|x l Hx Hl IH]; [cbn; lia|]. destruct l as [|y l]; [cbn; lia|].
  change (removelast (x :: y :: l)) with (x :: removelast (y :: l)). cbn [prod] in *. nia.
Qed.

Lemma fill_rows_spec d dim s e : length dim = S d -> Forall (fun x => 0 < x) dim -> 0 <= s -> e <= hd 0 dim ->
  exists r, fill_rows dim s e = Some r /\ rvalid d r /\ forall c, inr d r c <-> in_grid dim c /\ s <= hd 0 c < e.
Proof.
  intros Hdim Hpos Hs He. unfold fill_rows. destruct dim as [|h ms]; [discriminate|]. cbn [length map tl hd] in *. rewrite Hdim.
  inversion Hpos as [|? ? Hh Hms]; subst.
  set (b := mkBox (s :: map (fun _ => 0) ms) (Z.max (e - s) 0 :: ms)).
  assert (H1 : length (b_origin b) = S d) by (cbn; rewrite map_length; exact Hdim). assert (H2 : length (b_dim b) = S d) by exact Hdim.
  assert (H3 : rows_regular b).
  { unfold rows_regular. cbn [b_dim b]. destruct ms as [|m ms]; [exact Logic.I|]. split; [lia|].
    apply Forall_forall. intros x Hx. rewrite Forall_forall in Hms. apply Hms. rewrite (app_removelast_last 0 (l := m :: ms)) by discriminate.
    apply in_or_app. now left. }
  destruct (regular_streakable (S d) b H1 H2 H3) as [H4 H5].
  destruct (insert_box_valid d (reg_empty (S d)) b (Z.to_nat (prod (h :: ms))) (rvalid_empty d) H1 H2 H4) as (r & E1 & V & Hr).
  { assert (Hle : prod (b_dim (origins_box b)) <= prod (h :: ms)); [|lia].
    eapply Z.le_trans; [exact H5|]. cbn [b_dim b prod]. destruct ms as [|m ms]; [cbn; lia|].
    change (removelast (Z.max (e - s) 0 :: m :: ms)) with (Z.max (e - s) 0 :: removelast (m :: ms)). pose proof (removelast_prod (m :: ms) Hms) as Hp.
    change (prod (Z.max (e - s) 0 :: removelast (m :: ms))) with (Z.max (e - s) 0 * prod (removelast (m :: ms))). nia. }
  exists r. split; [exact E1|]. split; [exact V|]. intros c.
  assert (Hbox : in_box b c <-> in_grid (h :: ms) c /\ s <= hd 0 c < e).
  { unfold in_box, in_grid, b. cbn [b_origin b_dim map]. destruct c as [|x c]; cbn [inside hd]; [tauto|]. split.
    - intros [Hx Hc]. split; [split; [lia|exact Hc]|lia].
    - intros [[Hx Hc] Hx']. split; [lia|exact Hc]. }
  unfold inr. split.
  - intros [Hl Hc]. apply Hbox. apply Hr in Hc; [|exact Hl]. destruct Hc as [Hc|Hc]; [|exact Hc]. exfalso. now apply (rin_empty d c Hl).
  - intros Hc. assert (Hl : length c = S d) by (destruct Hc as [Hc _]; apply grid_length in Hc; cbn in Hc; lia). split; [exact Hl|]. apply Hr; [exact Hl|]. right. now apply Hbox.
Qed.

Lemma in_grid_hd d dim c : length dim = S d -> in_grid dim c -> 0 <= hd 0 c < hd 0 dim.
Proof. unfold in_grid. destruct dim as [|h ms], c as [|x c]; cbn [inside map hd length]; try lia; try contradiction. Qed.

Section Conf.
Context (d : nat) (sp : space) (dim : coord) (E : neigh) (n : nat).
Context (L : space_laws d sp (in_grid dim) E 1).
Context (Hdim : length dim = S d) (Hpos : Forall (fun x => 0 < x) dim).
Context (nb : coord -> list (option coord)) (Hreads : reads_within (in_grid dim) E nb).

Lemma rows_good : rows_ok dim.
Proof using Hdim Hpos.
  intros s e Hs Hse He. destruct (fill_rows_spec d dim s e Hdim Hpos Hs He) as (r & E1 & V & Hr). destruct (region_coords_spec d r V) as (cs & E2 & Hcs).
  exists r, cs. split; [exact E1|]. split; [exact E2|]. intros c. rewrite Hcs. apply Hr.
Qed.

(** ** The ghost regions *)

Section Parts.
Context (parts : list Z) (Hcuts : cuts n (hd 0 dim) parts).

Notation own i := (stripe_cells dim parts i).

Lemma stripe_fill i : (i < n)%nat -> exists r, fill_rows dim (row_start parts i) (row_end parts i) = Some r /\ rvalid d r /\ forall c, inr d r c <-> own i c.
Proof using Hdim Hpos Hcuts.
  intros Hi. pose proof (cuts_range dim n parts Hcuts i ltac:(lia)). pose proof (cuts_range dim n parts Hcuts (S i) ltac:(lia)).
  apply fill_rows_spec; [exact Hdim|exact Hpos| |]; unfold row_start, row_end; lia.
Qed.

Lemma stripe_expand r i : rvalid d r -> (forall c, inr d r c <-> own i c) ->
  exists r', sp_expand sp 1 r = Some r' /\ rvalid d r' /\ forall c, inr d r' c <-> exists c0, own i c0 /\ E c0 c.
Proof using L.
  intros V Hr. destruct (sl_expand1 _ _ _ _ _ L r V) as (r' & E1 & V' & H'); [intros c Hc; apply (proj1 (Hr c) Hc)|].
  exists r'. split; [exact E1|]. split; [exact V'|]. intros c. split.
  - intros Hc. destruct (proj1 (H' c (proj1 Hc)) Hc) as (c0 & H0 & H1). exists c0. split; [now apply Hr|exact H1].
  - intros (c0 & H0 & H1). apply H'; [|exists c0; split; [now apply Hr|exact H1]].
    apply (sl_len _ _ _ _ _ L). eapply (sl_closed _ _ _ _ _ L); [apply H0|exact H1].
Qed.

(** What node [i] needs of node [j]. *)
Definition wants i j c : Prop := own j c /\ exists c0, own i c0 /\ E c0 c.

Lemma union_inr a b : rvalid d a -> rvalid d b ->
  exists r, reg_union_assign a b = Some r /\ rvalid d r /\ forall c, inr d r c <-> inr d a c \/ inr d b c.
Proof.
  intros Ha Hb. destruct (reg_union_assign_valid d a b Ha Hb) as (r & E1 & V & H). exists r. split; [exact E1|]. split; [exact V|].
  intros c. unfold inr. split.
  - intros [Hl Hc]. apply H in Hc; [|exact Hl]. unfold rin in Hc. tauto.
  - intros [[Hl Hc]|[Hl Hc]]; (split; [exact Hl|]; apply H; [exact Hl|]; unfold rin; tauto).
Qed.

Lemma ghost_loop_spec i region expanded : (i < n)%nat -> rvalid d region -> rvalid d expanded ->
  (forall c, inr d region c <-> own i c) -> (forall c, inr d expanded c <-> exists c0, own i c0 /\ E c0 c) ->
  forall others rim, NoDup others -> (forall j, In j others -> (j < n)%nat) -> rvalid d rim ->
  exists rim' ins outs, ghost_loop sp dim parts region expanded i others rim = Some (rim', ins, outs) /\ rvalid d rim' /\
    (forall c, inr d rim' c <-> inr d rim c \/ exists j, In j others /\ j <> i /\ wants j i c) /\
    NoDup (keys ins) /\ NoDup (keys outs) /\
    (forall j cs, In (j, cs) ins <-> In j others /\ j <> i /\ cs <> [] /\ exists r, rvalid d r /\ region_coords r = Some cs /\ forall c, inr d r c <-> wants i j c) /\
    (forall j cs, In (j, cs) outs <-> In j others /\ j <> i /\ cs <> [] /\ exists r, rvalid d r /\ region_coords r = Some cs /\ forall c, inr d r c <-> wants j i c).
Proof using L Hdim Hpos Hcuts.
  intros Hi Vr Ve Hr He. induction others as [|j others IH]; intros rim Hnd Hlt Vrim; cbn [ghost_loop].
  { exists rim, [], []. split; [reflexivity|]. split; [exact Vrim|]. split; [intros c; split; [now left|intros [H|(j & [] & _)]; exact H]|].
    split; [constructor|]. split; [constructor|]. split; (intros j cs; split; [intros []|intros ([] & _)]). }
  inversion Hnd as [|? ? Hj Hnd']; subst. destruct (Nat.eqb_spec j i) as [->|Hne].
  { destruct (IH rim Hnd' ltac:(intros; apply Hlt; now right) Vrim) as (rim' & ins & outs & E1 & V' & H1 & H2 & H3 & H4 & H5).
    exists rim', ins, outs. split; [exact E1|]. split; [exact V'|]. split; [|split; [exact H2|split; [exact H3|split]]].
    - intros c. rewrite H1. split; (intros [H|(j & Hj' & Hne & Hw)]; [now left|right; exists j]); [split; [now right|auto]|].
      destruct Hj' as [->|Hj']; [contradiction|auto].
    - intros j cs. rewrite H4. split; [intros (Ha & Hb); split; [now right|exact Hb]|intros ([<-|Ha] & Hb); [tauto|split; [exact Ha|exact Hb]]].
    - intros j cs. rewrite H5. split; [intros (Ha & Hb); split; [now right|exact Hb]|intros ([<-|Ha] & Hb); [tauto|split; [exact Ha|exact Hb]]]. }
  destruct (stripe_fill j (Hlt j (or_introl eq_refl))) as (other & -> & Vo & Ho). cbn [obind].
  destruct (stripe_expand other j Vo Ho) as (oex & -> & Vox & Hox). cbn [obind].
  destruct (isect_inr d expanded other Ve Vo) as (outer & -> & Vout & Hout). cbn [obind].
  destruct (isect_inr d region oex Vr Vox) as (inner & -> & Vin & Hin). cbn [obind].
  assert (Hrim : exists rim1, (if reg_is_empty inner then Some rim else reg_union_assign rim inner) = Some rim1 /\ rvalid d rim1 /\
    forall c, inr d rim1 c <-> inr d rim c \/ wants j i c).
  { assert (Hw : forall c, inr d inner c <-> wants j i c) by (intros c; rewrite Hin, Hr, Hox; unfold wants; tauto).
    destruct (reg_is_empty inner) eqn:Ee.
    - exists rim. split; [reflexivity|]. split; [exact Vrim|]. intros c. rewrite <- Hw. pose proof (proj1 (empty_inr d inner Vin) Ee c). tauto.
    - destruct (union_inr rim inner Vrim Vin) as (r & -> & V & H). exists r. split; [reflexivity|]. split; [exact V|]. intros c. rewrite H, Hw. tauto. }
  destruct Hrim as (rim1 & -> & Vrim1 & Hrim1). cbn [obind].
  destruct (region_coords_spec d outer Vout) as (oc & Eoc & Hoc). destruct (region_coords_spec d inner Vin) as (ic & Eic & Hic). rewrite Eoc, Eic. cbn [obind].
  destruct (IH rim1 Hnd' ltac:(intros; apply Hlt; now right) Vrim1) as (rim' & ins & outs & -> & V' & H1 & H2 & H3 & H4 & H5). cbn [obind].
  assert (Hwo : forall c, inr d outer c <-> wants i j c) by (intros c; rewrite Hout, Ho, He; unfold wants; tauto).
  assert (Hwi : forall c, inr d inner c <-> wants j i c) by (intros c; rewrite Hin, Hr, Hox; unfold wants; tauto).
  assert (Hnil : forall r cs, rvalid d r -> (forall c, In c cs <-> inr d r c) -> (reg_is_empty r = true <-> cs = [])).
  { intros r cs V H. rewrite (empty_inr d r V). split; [intros H'; destruct cs as [|c cs]; [reflexivity|]; exfalso; apply (H' c), H; now left|intros -> c Hc; now apply H in Hc]. }
  assert (Huniq : forall r r' cs cs', rvalid d r -> rvalid d r' -> (forall c, inr d r c <-> inr d r' c) -> region_coords r = Some cs -> region_coords r' = Some cs' -> cs = cs').
  { intros r r' cs cs' V1 V2 H F1 F2. rewrite (ext_inr d r r' V1 V2 H) in F1. congruence. }
  assert (Hgen : forall (W : nat -> coord -> Prop) r cs0 l, rvalid d r -> region_coords r = Some cs0 -> (forall c, In c cs0 <-> inr d r c) -> (forall c, inr d r c <-> W j c) ->
     (forall k cs, In (k, cs) l <-> In k others /\ k <> i /\ cs <> [] /\ exists r, rvalid d r /\ region_coords r = Some cs /\ forall c, inr d r c <-> W k c) ->
     NoDup (keys l) -> let l' := if reg_is_empty r then l else (j, cs0) :: l in NoDup (keys l') /\
     forall k cs, In (k, cs) l' <-> (j = k \/ In k others) /\ k <> i /\ cs <> [] /\ exists r, rvalid d r /\ region_coords r = Some cs /\ forall c, inr d r c <-> W k c).
  { intros W r cs0 l V Ec Hc HW Hl Hk l'. pose proof (Hnil r cs0 V Hc) as Hn0. unfold l'. destruct (reg_is_empty r) eqn:Er.
    - split; [exact Hk|]. intros k cs. rewrite Hl. split; [intros (A & B); auto|]. intros ([<-|A] & B); [exfalso|auto].
      destruct B as (_ & Hcs & r' & V2 & E2 & H2'). apply Hcs. assert (Hcc : cs = cs0).
      { apply (Huniq r' r cs cs0 V2 V); auto. intros c. rewrite H2', HW. tauto. }
      rewrite Hcc. now apply Hn0.
    - split.
      + cbn [keys map fst]. constructor; [|exact Hk]. intros Hin'. apply in_keys in Hin'. destruct Hin' as (cs & Hin'). apply Hl in Hin'. tauto.
      + intros k cs. cbn [In]. rewrite Hl. split.
        * intros [[= <- <-]|(A & B)]; [|auto]. split; [now left|]. split; [exact Hne|]. split; [intros Z0; apply Hn0 in Z0; discriminate|]. exists r. auto.
        * intros ([<-|A] & B); [|auto]. left. destruct B as (_ & _ & r' & V2 & E2 & H2'). f_equal. apply (Huniq r r' cs0 cs V V2); auto. intros c. rewrite H2', HW. tauto. }
  destruct (Hgen (fun k => wants i k) outer oc ins Vout Eoc Hoc Hwo H4 H2) as [K1 K2].
  destruct (Hgen (fun k => wants k i) inner ic outs Vin Eic Hic Hwi H5 H3) as [K3 K4].
  do 3 eexists. split; [reflexivity|]. split; [exact V'|]. split; [|split; [exact K1|split; [exact K3|split; [exact K2|exact K4]]]].
  intros c. rewrite H1, Hrim1. split.
  - intros [[H|H]|(k & A & B & W)]; [now left|right; exists j; split; [now left|auto]|right; exists k; split; [now right|auto]].
  - intros [H|(k & [<-|A] & B & W)]; [auto|auto|right; eauto].
Qed.

Lemma stripe_own c : in_grid dim c -> exists j, (j < n)%nat /\ own j c.
Proof using Hdim Hcuts.
  intros Hg. destruct Hcuts as (_ & H0 & Hn & Hm).
  assert (Hx : 0 <= hd 0 c < hd 0 dim) by exact (in_grid_hd d dim c Hdim Hg).
  assert (H : forall k, (k <= n)%nat -> hd 0 c < nth k parts 0 -> exists j, (j < k)%nat /\ nth j parts 0 <= hd 0 c < nth (S j) parts 0).
  { induction k as [|k IH]; intros Hk Hlt; [lia|]. destruct (Z.lt_ge_cases (hd 0 c) (nth k parts 0)) as [Hc|Hc].
    - destruct (IH ltac:(lia) Hc) as (j & Hj & H). exists j. split; [lia|exact H].
    - exists k. split; [lia|lia]. }
  destruct (H n (Nat.le_refl n) ltac:(lia)) as (j & Hj & H'). exists j. split; [exact Hj|]. split; assumption.
Qed.

Lemma config_stripe i : (i < n)%nat -> exists cf, stripe_config sp dim parts n i = Some cf /\
  (forall c, In c (sc_region cf) <-> own i c) /\ NoDup (sc_region cf) /\ NoDup (sc_expanded cf) /\ NoDup (keys (sc_in cf)) /\ NoDup (keys (sc_out cf)) /\
  (forall c, In c (sc_expanded cf) <-> exists c0, own i c0 /\ E c0 c) /\
  (forall c, In c (sc_rim cf) <-> exists j, (j < n)%nat /\ j <> i /\ wants j i c) /\
  (forall c, In c (sc_inner cf) <-> own i c /\ ~ In c (sc_rim cf)) /\
  (forall j cs, In (j, cs) (sc_in cf) <-> (j < n)%nat /\ j <> i /\ cs <> [] /\ exists r, rvalid d r /\ region_coords r = Some cs /\ forall c, inr d r c <-> wants i j c) /\
  (forall j cs, In (j, cs) (sc_out cf) <-> (j < n)%nat /\ j <> i /\ cs <> [] /\ exists r, rvalid d r /\ region_coords r = Some cs /\ forall c, inr d r c <-> wants j i c).
Proof using L Hdim Hpos Hcuts.
  intros Hi. destruct (stripe_fill i Hi) as (region & E1 & V1 & H1). destruct (stripe_expand region i V1 H1) as (expanded & E2 & V2 & H2).
  assert (Hseq : forall j, In j (seq 0 n) <-> (j < n)%nat) by (intros j; rewrite in_seq; lia).
  destruct (ghost_loop_spec i region expanded Hi V1 V2 H1 H2 (seq 0 n) (reg_empty (S d)) (seq_NoDup n 0) (fun j H => proj1 (Hseq j) H) (rvalid_empty d))
    as (rim & ins & outs & E3 & V3 & H3 & K1 & K2 & H4 & H5).
  destruct (diff_inr d region rim V1 V3) as (inner & E4 & V4 & H6).
  destruct (region_coords_nodup d region V1) as (rc & F1 & G1 & N1). destruct (region_coords_nodup d expanded V2) as (ec & F2 & G2 & N2).
  destruct (region_coords_spec d inner V4) as (nc & F3 & G3). destruct (region_coords_spec d rim V3) as (gc & F4 & G4).
  eexists. split.
  { unfold stripe_config. rewrite E1. cbn [obind]. rewrite E2. cbn [obind]. rewrite Hdim, E3. cbn [obind]. rewrite E4. cbn [obind].
    rewrite F1. cbn [obind]. rewrite F2. cbn [obind]. rewrite F3. cbn [obind]. rewrite F4. cbn [obind]. reflexivity. }
  cbn [sc_region sc_expanded sc_inner sc_rim sc_in sc_out].
  assert (Hrim : forall c, In c gc <-> exists j, (j < n)%nat /\ j <> i /\ wants j i c).
  { intros c. rewrite G4, H3. split.
    - intros [H|(j & Hj & A)]; [exfalso; destruct H as [Hl H]; now apply (rin_empty d c Hl)|]. exists j. split; [now apply Hseq|exact A].
    - intros (j & Hj & A). right. exists j. split; [now apply Hseq|exact A]. }
  split; [intros c; rewrite G1; apply H1|]. split; [exact N1|]. split; [exact N2|]. split; [exact K1|]. split; [exact K2|].
  split; [intros c; rewrite G2; apply H2|]. split; [exact Hrim|]. split.
  - intros c. rewrite G3, H6, H1, G4. tauto.
  - split; (intros j cs; rewrite ?H4, ?H5, Hseq; tauto).
Qed.

Lemma configs_good : exists cfs, stripe_configs sp dim parts n = Some cfs /\ good nb dim n parts cfs.
Proof using L Hdim Hpos Hcuts Hreads.
  destruct (mapo_ok (stripe_config sp dim parts n) (seq 0 n)) as (cfs & Ec & Lc & Hc).
  { intros i Hi. apply in_seq in Hi. destruct (config_stripe i) as (cf & E1 & _); [lia|]. eauto. }
  rewrite seq_length in Lc. exists cfs. split; [exact Ec|].
  assert (Hnth : forall i cf, nth_error cfs i = Some cf -> (i < n)%nat /\ stripe_config sp dim parts n i = Some cf).
  { intros i cf H. assert (Hi : (i < n)%nat) by (rewrite <- Lc; apply nth_error_Some; congruence). split; [exact Hi|].
    destruct (Hc i i) as (b & Eb & En).
    { rewrite nth_error_nth' with (d := O) by (rewrite seq_length; exact Hi). now rewrite seq_nth. }
    congruence. }
  assert (Hcf : forall i cf, nth_error cfs i = Some cf -> (i < n)%nat /\ exists cf', stripe_config sp dim parts n i = Some cf' /\ cf' = cf) by (intros i cf H; destruct (Hnth i cf H); eauto).
  assert (Hall : forall i cf, nth_error cfs i = Some cf -> (i < n)%nat /\
    (forall c, In c (sc_region cf) <-> own i c) /\ NoDup (sc_region cf) /\ NoDup (sc_expanded cf) /\ NoDup (keys (sc_in cf)) /\ NoDup (keys (sc_out cf)) /\
  (forall c, In c (sc_expanded cf) <-> exists c0, own i c0 /\ E c0 c) /\
  (forall c, In c (sc_rim cf) <-> exists j, (j < n)%nat /\ j <> i /\ wants j i c) /\
  (forall c, In c (sc_inner cf) <-> own i c /\ ~ In c (sc_rim cf)) /\
  (forall j cs, In (j, cs) (sc_in cf) <-> (j < n)%nat /\ j <> i /\ cs <> [] /\ exists r, rvalid d r /\ region_coords r = Some cs /\ forall c, inr d r c <-> wants i j c) /\
  (forall j cs, In (j, cs) (sc_out cf) <-> (j < n)%nat /\ j <> i /\ cs <> [] /\ exists r, rvalid d r /\ region_coords r = Some cs /\ forall c, inr d r c <-> wants j i c)).
  { intros i cf Hi. destruct (Hnth i cf Hi) as [Hin E1]. destruct (config_stripe i Hin) as (cf' & E1' & H). assert (cf' = cf) by congruence. subst cf'. split; [exact Hin|exact H]. }
  clear Hnth Hc.
  split.
  - exact Hcuts.
  - exact Lc.
  - intros i cf c Hi. apply (Hall i cf Hi).
  - intros i cf Hi. destruct (Hall i cf Hi) as (_ & _ & A2 & A3 & A4 & A5 & _). auto.
  - intros i cf c Hi. destruct (Hall i cf Hi) as (Hin & A1 & _ & _ & _ & _ & A6 & A7 & A8 & _). split.
    + intros H. destruct (in_dec (list_eq_dec Z.eq_dec) c (sc_rim cf)) as [Hr|Hr]; [now left|right]. apply A8. split; [now apply A1|exact Hr].
    + intros [H|H]; apply A1; [apply A7 in H; destruct H as (j & _ & _ & H); apply H|apply A8 in H; apply H].
  - intros i cf c c' Hi Hc Hc'. destruct (Hall i cf Hi) as (Hin & A1 & _ & _ & _ & _ & A6 & _). apply A6. apply A1 in Hc. exists c. split; [exact Hc|].
    apply Hreads; [apply Hc|exact Hc'].
  - intros i cf c Hi H. destruct (Hall i cf Hi) as (Hin & A1 & _ & _ & _ & _ & A6 & _). apply A6. apply A1 in H. exists c. split; [exact H|]. apply (sl_refl _ _ _ _ _ L). apply H.
  - intros i cf c Hi H. destruct (Hall i cf Hi) as (Hin & A1 & _ & _ & _ & _ & A6 & _ & _ & A9 & _).
    apply A6 in H. destruct H as (c0 & H0 & H1). assert (Hg : in_grid dim c) by (eapply (sl_closed _ _ _ _ _ L); [apply H0|exact H1]).
    destruct (stripe_own c Hg) as (j & Hj & Ho). destruct (Nat.eq_dec j i) as [->|Hne]; [left; now apply A1|right].
    destruct (stripe_fill j Hj) as (other & E2 & V2 & H2). destruct (stripe_fill i Hin) as (region & E3 & V3 & H3). destruct (stripe_expand region i V3 H3) as (ex & E4 & V4 & H4).
    destruct (isect_inr d ex other V4 V2) as (outer & E5 & V5 & H5). destruct (region_coords_spec d outer V5) as (cs & E6 & H6).
    assert (Hin' : In c cs) by (apply H6, H5; split; [apply H4; eauto|now apply H2]).
    exists j, cs. split; [|exact Hin']. apply A9. split; [exact Hj|]. split; [exact Hne|]. split; [intros ->; destruct Hin'|]. exists outer. split; [exact V5|]. split; [exact E6|].
    intros c'. rewrite H5, H4, H2. unfold wants. tauto.
  - intros i j cfi cfj cs Hi Hj. destruct (Hall i cfi Hi) as (Li & _ & _ & _ & _ & _ & _ & _ & _ & _ & A10). destruct (Hall j cfj Hj) as (Lj & _ & _ & _ & _ & _ & _ & _ & _ & B9 & _).
    rewrite A10, B9. split; (intros (_ & Hne & H); split; [assumption|]; split; [congruence|exact H]).
  - intros i cf j cs Hi H. destruct (Hall i cf Hi) as (_ & _ & _ & _ & _ & _ & _ & _ & _ & A9 & A10). rewrite A9, A10 in H. tauto.
  - intros i cf j cs c Hi H Hc. destruct (Hall i cf Hi) as (_ & _ & _ & _ & _ & _ & _ & A7 & _ & _ & A10). apply A7. apply A10 in H.
    destruct H as (Hj & Hne & _ & r & V & Er & Hr). exists j. split; [exact Hj|]. split; [exact Hne|]. apply Hr.
    destruct (region_coords_spec d r V) as (cs' & E' & H'). rewrite Er in E'. injection E' as <-. now apply H'.
Qed.

End Parts.
End Conf.
