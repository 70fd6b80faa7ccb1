(** C205-C208: the set up of distributed simulations, and complete simulations. *)
From Coq Require Import Floats.SpecFloat.
From Verif Require Import Base RegionSpec RegionModel RegionRep RegionIterModel RegionStreaks RegionOpsModel
  RegionOps CoordModel CoordSpec CoordFacts HaloSpec PartitionSpec PartitionManagerModel HaloFacts
  PartitionManagerSpec PartitionModel StripingProps SfcProps HIndexingProps BisectDoubleModel BisectDoubleSpec BisectDoubleProps CheckerProps PartitionManagerFacts PartitionManagerProps TopologyFacts
  PatchModel AdapterModel ScheduleSpec ScheduleFacts BalancerSpec ParamModel ImageModel
  StepperModel StepperSpec StepperFacts ConfigFacts SfcFacts StepperProps HpxLinkModel HpxSimModel HpxSimSpec HpxSimFacts HpxSimProps SetupModel SetupSpec SetupFacts.

(** ** C205: weights in double precision *)

(** In double precision the weights are not negative and add up to the number
    of items, too. *)
Theorem C205_initial_weights : forall items speeds,
  0 <= items < 2 ^ 52 -> Z.of_nat (length speeds) <= 2 ^ 53 -> Forall speed_ok speeds -> Exists running speeds ->
  exists l, start_weights ieee items speeds = Some l /\ distributes (length speeds) items l.
Proof.
  intros items speeds Hi Hn Hs Hr. destruct (start_weights_ok items speeds Hi Hn Hs Hr) as (l & E & H1 & H2 & H3).
  exists l. split; [exact E|]. split; [exact H1|]. split; [exact H2|exact H3].
Qed.
Print Assumptions C205_initial_weights.

(** 0.1, 3, 0 and 2.5 *)
Definition ex_speeds : list spec_float :=
  [S754_finite false 7205759403792794 (-56); S754_finite false 6755399441055744 (-51); S754_zero false; S754_finite false 5629499534213120 (-51)].

Example C205_example : Forall speed_ok ex_speeds /\ Exists running ex_speeds /\
  start_weights ieee 1000 ex_speeds = Some [17; 536; 0; 447].
Proof.
  split; [|split].
  - unfold ex_speeds. rewrite !Forall_cons_iff. split; [|split; [|split; [|split; [|constructor]]]].
    all: first [right; repeat split; vm_compute; reflexivity|left; reflexivity].
  - apply Exists_cons_hd. repeat split; vm_compute; reflexivity.
  - vm_compute. reflexivity.
Qed.

(** ** C206: update groups of all localities *)

Section Gather.
Context {N : Type} (A : arith N).

Fixpoint starts (vecs : list (list N)) (m : nat) : list nat :=
  match vecs with [] => [m] | v :: vecs' => m :: starts vecs' (m + length v) end.

Lemma gather_starts vecs : forall indices flat m, gather_loop vecs indices flat m = (indices ++ starts vecs m, flat ++ concat vecs).
Proof.
  induction vecs as [|v vecs IH]; intros indices flat m; cbn [gather_loop starts concat]; [now rewrite app_nil_r|].
  rewrite IH, <- !app_assoc. reflexivity.
Qed.

Lemma starts_length vecs : forall m, length (starts vecs m) = S (length vecs).
Proof. induction vecs as [|v vecs IH]; intros m; cbn [starts length]; [reflexivity|]. now rewrite IH. Qed.

Lemma starts_nth vecs : forall m r v, nth_error vecs r = Some v -> exists a, (m <= a)%nat /\
  nth_error (starts vecs m) r = Some a /\ nth_error (starts vecs m) (r + 1) = Some (a + length v)%nat /\
  (a + length v <= m + length (concat vecs))%nat /\
  forall k x, nth_error v k = Some x -> nth_error (concat vecs) (a - m + k) = Some x.
Proof.
  induction vecs as [|u vecs IH]; intros m [|r] v H; cbn [nth_error] in H; try discriminate.
  - injection H as <-. exists m. split; [lia|]. split; [reflexivity|]. cbn [starts nth_error Nat.add concat]. rewrite app_length. split; [|split; [lia|]].
    + destruct vecs; reflexivity.
    + intros k x Hk. rewrite Nat.sub_diag. cbn [Nat.add]. rewrite nth_error_app1; [exact Hk|]. apply nth_error_Some. congruence.
  - destruct (IH (m + length u)%nat r v H) as (a & H1 & H2 & H3 & H4 & H5). exists a. cbn [starts Nat.add concat]. rewrite app_length.
    split; [lia|]. split; [exact H2|]. split; [exact H3|]. split; [lia|]. intros k x Hk. rewrite nth_error_app2 by lia.
    replace (a - m + k - length u)%nat with (a - (m + length u) + k)%nat by lia. now apply H5.
Qed.

Lemma starts_find vecs : forall m g, (m <= g < m + length (concat vecs))%nat ->
  exists r a b, nth_error (starts vecs m) r = Some a /\ nth_error (starts vecs m) (r + 1) = Some b /\ (a <= g < b)%nat /\ (r < length vecs)%nat.
Proof.
  induction vecs as [|u vecs IH]; intros m g Hg; cbn [concat length] in Hg; [lia|]. rewrite app_length in Hg.
  destruct (Nat.lt_ge_cases g (m + length u)) as [H|H].
  - exists 0%nat, m, (m + length u)%nat. cbn [starts nth_error Nat.add length]. split; [reflexivity|]. split; [destruct vecs; reflexivity|]. lia.
  - destruct (IH (m + length u)%nat g ltac:(lia)) as (r & a & b & H1 & H2 & H3 & H4). exists (S r), a, b. cbn [starts Nat.add nth_error length]. repeat split; auto; lia.
Qed.

Lemma starts_mono vecs : forall m r r' a b, (r <= r')%nat -> nth_error (starts vecs m) r = Some a -> nth_error (starts vecs m) r' = Some b -> (m <= a <= b)%nat.
Proof.
  induction vecs as [|u vecs IH]; intros m r r' a b Hr Ha Hb; cbn [starts] in Ha, Hb.
  - destruct r as [|r]; [|destruct r; discriminate]. destruct r' as [|r']; [|destruct r'; discriminate]. cbn in Ha, Hb. injection Ha as <-. injection Hb as <-. lia.
  - destruct r as [|r].
    + cbn in Ha. injection Ha as <-. destruct r' as [|r']; cbn in Hb; [injection Hb as <-; lia|].
      assert (exists a0, nth_error (starts vecs (m + length u)) 0 = Some a0) as (a0 & H0) by (destruct vecs; eexists; reflexivity).
      pose proof (IH (m + length u)%nat 0%nat r' a0 b ltac:(lia) H0 Hb). lia.
    + destruct r' as [|r']; [lia|]. cbn in Ha, Hb. pose proof (IH (m + length u)%nat r r' a b ltac:(lia) Ha Hb). lia.
Qed.

(** Each locality creates as many update groups as it has speeds; each update
    group is created by exactly one locality, and its speed is the one of that
    locality, times the locality's speed guide. *)
Theorem C206_locality_indices : forall locs,
  let indices := fst (gather_indices A locs) in
  let speeds := snd (gather_indices A locs) in
  length speeds = list_sum (map (fun l => length (snd l)) locs) /\
  (forall r guide own, nth_error locs r = Some (guide, own) -> exists gs, groups_of indices r = Some gs /\ length gs = length own /\
     forall k g s, nth_error gs k = Some g -> nth_error own k = Some s -> nth_error speeds g = Some (a_mul A s guide)) /\
  (forall g, (g < length speeds)%nat -> exists r gs, (r < length locs)%nat /\ groups_of indices r = Some gs /\ In g gs /\
     forall r' gs', groups_of indices r' = Some gs' -> In g gs' -> r' = r) /\
  (forall r gs g, groups_of indices r = Some gs -> In g gs -> (g < length speeds)%nat).
Proof.
  intros locs. unfold gather_indices. set (vecs := map (fun '(g, s) => corrected_speeds A g s) locs). rewrite gather_starts. cbn [fst snd app].
  assert (Lv : length vecs = length locs) by apply map_length.
  assert (Hin : forall r gs g, groups_of (starts vecs 0) r = Some gs -> In g gs -> exists a b, nth_error (starts vecs 0) r = Some a /\ nth_error (starts vecs 0) (r + 1) = Some b /\ (a <= g < b)%nat).
  { intros r gs g. unfold groups_of. destruct (nth_error (starts vecs 0) r) as [a|]; [|discriminate]. destruct (nth_error (starts vecs 0) (r + 1)) as [b|]; [|discriminate].
    intros H. injection H as <-. intros H. apply in_seq in H. exists a, b. repeat split; auto; lia. }
  split; [|split; [|split]].
  - unfold vecs. clear. induction locs as [|[g s] locs IH]; [reflexivity|]. cbn [map concat list_sum fold_right snd]. rewrite app_length, IH. unfold corrected_speeds. now rewrite map_length.
  - intros r guide own Hr. assert (Hv : nth_error vecs r = Some (corrected_speeds A guide own)) by (unfold vecs; now rewrite nth_error_map, Hr).
    destruct (starts_nth vecs 0 r _ Hv) as (a & _ & H2 & H3 & _ & H5). unfold corrected_speeds in H3. rewrite map_length in H3.
    exists (seq a (length own)). unfold groups_of. rewrite H2, H3. split; [do 2 f_equal; lia|]. split; [apply seq_length|].
    intros k g s Hg Hs. assert (Hk : (k < length own)%nat) by (apply nth_error_Some; congruence).
    rewrite (nth_error_nth' _ 0%nat), seq_nth in Hg by (rewrite ?seq_length; exact Hk). injection Hg as <-. specialize (H5 k (a_mul A s guide)). rewrite Nat.sub_0_r in H5. apply H5.
    unfold corrected_speeds. now rewrite nth_error_map, Hs.
  - intros g Hg. destruct (starts_find vecs 0 g ltac:(lia)) as (r & a & b & H1 & H2 & H3 & H4). exists r, (seq a (b - a)). split; [lia|].
    split; [unfold groups_of; now rewrite H1, H2|]. split; [apply in_seq; lia|]. intros r' gs' H5 H6.
    destruct (Hin r' gs' g H5 H6) as (a' & b' & K1 & K2 & K3). destruct (Nat.lt_trichotomy r r') as [C|[C|C]]; [|congruence|].
    + pose proof (starts_mono vecs 0 (r + 1) r' b a' ltac:(lia) H2 K1). lia.
    + pose proof (starts_mono vecs 0 (r' + 1) r b' a ltac:(lia) K2 H1). lia.
  - intros r gs g H5 H6. destruct (Hin r gs g H5 H6) as (a & b & K1 & K2 & K3).
    assert (Hr : (r + 1 < length (starts vecs 0))%nat) by (apply nth_error_Some; congruence). rewrite starts_length in Hr.
    destruct (nth_error vecs r) as [v|] eqn:Ev; [|apply nth_error_None in Ev; lia].
    destruct (starts_nth vecs 0 r v Ev) as (a' & _ & L2 & L3 & L4 & _). assert (b = a' + length v)%nat by congruence. lia.
Qed.
End Gather.
Print Assumptions C206_locality_indices.

(** Localities with 2, 0 and 3 update groups *)
Example C206_example :
  gather_indices ints [(2, [10; 11]); (5, []); (3, [1; 2; 4])] = ([0; 2; 2; 5]%nat, [20; 22; 3; 6; 12]) /\
  groups_of [0; 2; 2; 5]%nat 2 = Some [2; 3; 4]%nat /\ groups_of [0; 2; 2; 5]%nat 1 = Some [].
Proof. split; [reflexivity|split; reflexivity]. Qed.

(** ** Partitions *)

Lemma prod_rows dims : Forall (fun n => 0 < n) dims -> 0 < prod dims /\ prod (removelast dims) <= prod dims.
Proof.
  induction 1 as [|x l Hx Hl [IH1 IH2]]; [cbn; lia|]. cbn [prod]. split; [nia|]. destruct l as [|y l]; [cbn; lia|].
  change (removelast (x :: y :: l)) with (x :: removelast (y :: l)). cbn [prod] in *. nia.
Qed.

Lemma zsum_fold l : zsum l = fold_right Z.add 0 l.
Proof. induction l as [|x l IH]; [reflexivity|]. cbn [zsum fold_right]. now rewrite IH. Qed.

Lemma make_partition_cover kind fuel d dims weights n :
  length dims = S d -> Forall (fun n => 0 < n) dims -> 5 * prod dims + 1300 <= Z.of_nat fuel ->
  distributes n (prod dims) weights -> (1 <= n)%nat -> suits kind dims n -> suits_weights kind weights ->
  exact_cover d n (make_partition kind fuel (map (fun _ => 0) dims) dims weights) (in_grid dims).
Proof.
  intros Hd Hp Hf (Hn & Hw & Hs) Hn1 Hk Hkw. rewrite <- zsum_fold in Hs. destruct (prod_rows dims Hp) as [P1 P2].
  assert (Ho : length (map (fun _ : Z => 0) dims) = S d) by now rewrite map_length.
  assert (Hp0 : Forall (fun n => 0 <= n) dims) by (eapply Forall_impl; [|exact Hp]; cbn; intros; lia).
  change (in_grid dims) with (in_box (mkBox (map (fun _ => 0) dims) dims)). rewrite <- Hn. destruct kind as [| | | |rnd dimw|limit]; cbn [make_partition suits suits_weights] in *.
  - apply C12_striping; auto; lia.
  - apply C13_zcurve; auto; lia.
  - assert (d = 1%nat) by lia. subst d. apply C14_hilbert; auto; lia.
  - destruct Hk as (ny & nx & -> & H1 & H2 & H3 & H4). assert (d = 1%nat) by (cbn in Hd; lia). subst d. cbn [prod] in *. apply C15_hindexing; auto; lia.
  - destruct Hk as (Hk & N & HN & HS). apply C212_bisection_upto with (prod dims) N; auto; try lia.
    + rewrite Forall_forall in *. intros x Hx. split; [now apply Hp|now apply HN].
    + intros ->. cbn in Hn. lia.
  - apply C16_checkerboarding; auto; try lia.
Qed.

(** The recursive bisection in double precision is fine for grids whose extents
    are ints. *)
Theorem C212_suits : forall dimw dims n, (length dims <= 2)%nat -> Forall (fun x => x <= 2 ^ 31) dims -> prod dims <= 2 ^ 64 ->
  suits (Bisection round_double dimw) dims n.
Proof.
  intros dimw dims n Hl Hd Hp. split; [exact Hl|]. exists (2 ^ 31). split; [exact Hd|]. intros a b m H1 H2 H3. apply C212_cuts; lia.
Qed.
Print Assumptions C212_suits.

(** ** C207, C208: complete simulations *)

(** The value which cell [c] has after the simulation, given the serial one's:
    steerers may have been called for the last step already. *)
Definition final_value {C} nanos start last (sts : list (nat * @action C)) (t : nat) (c : coord) (x v : C) : Prop :=
  (v = x \/ v = steered nanos start last sts (t * nanos) c x) /\ (sts = [] -> v = x).

Section Complete.
Context {C : Type} (upd : nat -> coord -> list C -> C) (edge dflt : C) (nanos d : nat) (dims : coord) (t : list bool) (offs : list coord) (w : nat).
Context (kind : partition_kind) (fuel : nat) (area : list coord) (g0 : grid C) (ini : nat -> grid C) (start last steps : nat) (sts : list (nat * @action C)).

Hypothesis Hd : length dims = S d.
Hypothesis Ht : length t = S d.
Hypothesis Hp : Forall (fun x => 0 < x) dims.
Hypothesis Hw : (1 <= w)%nat.
Hypothesis Hwd : Forall (fun x => Z.of_nat w <= x) dims.
Hypothesis Hoffs : Forall (fun o => near (diagonal (S d) 1) o (diagonal (S d) 0)) offs.
Hypothesis Hsize : prod dims < 2 ^ 52.
Hypothesis Hfuel : 5 * prod dims + 1300 <= Z.of_nat fuel.
Hypothesis Harea : forall c, In c area <-> in_grid dims c.
Hypothesis Hnodup : NoDup area.
Hypothesis Hnanos : (1 <= nanos)%nat.
Hypothesis Hlast : (start + steps <= last)%nat.
Hypothesis Hsts : Forall (fun s => (1 <= fst s)%nat) sts.
Hypothesis Halike : steers_alike start last sts.
Hypothesis Hsync : Nat.modulo (steps * nanos) w = O.
Hypothesis Hini : forall i c, in_grid dims c -> ini i c = g0 c.

Let nb := stencil_nb t dims offs.
Let steerers := make_steerers nanos start last sts.
Let ser := fst (serial_run upd nb edge nanos steerers area start steps g0).

Lemma partition_of speeds : Z.of_nat (length speeds) <= 2 ^ 53 -> Forall speed_ok speeds -> Exists running speeds ->
  suits kind dims (length speeds) -> (forall l, start_weights ieee (prod dims) speeds = Some l -> suits_weights kind l) ->
  exists l, start_weights ieee (prod dims) speeds = Some l /\
    exact_cover d (length speeds) (make_partition kind fuel (map (fun _ => 0) dims) dims l) (in_grid dims).
Proof.
  intros Hn Hs Hr Hk Hkw. destruct (prod_rows dims Hp) as [P1 _].
  destruct (C205_initial_weights (prod dims) speeds ltac:(lia) Hn Hs Hr) as (l & E & D). exists l. split; [exact E|].
  apply make_partition_cover; auto. destruct speeds; [inversion Hr|cbn; lia].
Qed.

(** HiParSimulator: whatever the ranks' speeds, the partition and the order of
    events, the simulation comes to an end, each cell belongs to exactly one rank,
    and has the value computed by the serial simulation. *)
Theorem C207_hipar_simulation : forall speeds,
  Z.of_nat (length speeds) <= 2 ^ 53 -> Forall speed_ok speeds -> Exists running speeds ->
  suits kind dims (length speeds) -> (forall l, start_weights ieee (prod dims) speeds = Some l -> suits_weights kind l) ->
  exists part cfs st0 bound,
    hipar_partition ieee kind fuel (map (fun _ => 0) dims) dims speeds = Some part /\
    configs (Regular dims t) part w (length speeds) = Some cfs /\
    sim_init nanos steerers cfs dflt start (steps * nanos) ini = Ok st0 /\
    (forall es, sim_run upd nb edge nanos steerers cfs st0 es <> Fail) /\
    (forall es st, sim_run upd nb edge nanos steerers cfs st0 es = Ok st -> (length es <= bound)%nat) /\
    (forall es st, sim_run upd nb edge nanos steerers cfs st0 es = Ok st -> ~ finished st ->
       exists e st', sim_step upd nb edge nanos steerers cfs st e = Ok st') /\
    forall es st, sim_run upd nb edge nanos steerers cfs st0 es = Ok st -> finished st ->
      forall c, in_grid dims c -> exists i nd,
        nth_error (s_nodes st) i = Some nd /\ cells d part i c /\ (forall j, (j < length speeds)%nat -> cells d part j c -> j = i) /\
        final_value nanos start last sts (start + steps) c (ser c) (n_old nd c) /\ n_step nd = (start + steps)%nat /\ n_nano nd = O.
Proof.
  intros speeds Hn Hs Hr Hk Hkw. destruct (partition_of speeds Hn Hs Hr Hk Hkw) as (l & El & Hcov).
  set (part := make_partition kind fuel (map (fun _ => 0) dims) dims l) in *.
  assert (Hset : setting d (Regular dims t) (in_grid dims) (moore d dims t) w) by (constructor; auto).
  assert (Hsym : symmetric (moore d dims t) \/ (w <= 2)%nat /\ sts = []) by (left; now apply moore_sym).
  assert (Hreads : reads_within (in_grid dims) (moore d dims t) nb) by now apply stencil_reads.
  assert (Hini' : forall i c, (i < length speeds)%nat -> grown (moore d dims t) w (cells d part i) c -> ini i c = g0 c).
  { intros i c Hi Hg. apply Hini. eapply (grown_inside d _ _ _ w (setting_laws _ _ _ _ _ Hset)); eauto. eapply cover_ins; eauto. }
  destruct (C21_final_grid upd nb edge dflt nanos d (Regular dims t) (in_grid dims) (moore d dims t) w (length speeds) part area g0 ini start last steps sts) as (cfs & st0 & E1 & E2 & H); auto.
  destruct (C22_no_deadlock upd nb edge dflt nanos d (Regular dims t) (in_grid dims) (moore d dims t) w (length speeds) part area g0 ini start last (steps * nanos) sts) as (cfs' & st0' & bound & E1' & E2' & D1 & D2 & D3); auto; [lia|].
  destruct (C21_parallel_equals_serial upd nb edge dflt nanos d (Regular dims t) (in_grid dims) (moore d dims t) w (length speeds) part area g0 ini start last (steps * nanos) sts) as (cfs2 & st2 & F1 & F2 & F3); auto; [lia|].
  rewrite E1 in E1', F1. injection E1' as <-. injection F1 as <-. rewrite E2 in E2', F2. injection E2' as <-. injection F2 as <-.
  exists part, cfs, st0, bound. split; [unfold hipar_partition; rewrite El; reflexivity|]. split; [exact E1|]. split; [exact E2|]. split; [exact D1|]. split; [exact D2|]. split; [exact D3|].
  intros es st Hrun Hfin c Hc. destruct (F3 es st Hrun) as [Hlen _]. destruct Hcov as (_ & Hdis & Hex).
  destruct (proj1 (Hex c) Hc) as (i & Hi & Hci). destruct (nth_error (s_nodes st) i) as [nd|] eqn:End; [|apply nth_error_None in End; lia].
  destruct (H es st Hrun Hfin i nd c End Hci) as (V1 & V2 & V3 & V4). exists i, nd. split; [exact End|]. split; [exact Hci|].
  split; [intros j Hj Hcj; eapply Hdis; eauto|]. split; [split; assumption|]. split; assumption.
Qed.

(** HpxSimulator: the same for any numbers of update groups per locality, if
    steerers commute; and the update group of a cell is created by exactly one
    locality. *)
Theorem C208_hpx_simulation : steerers_commute sts -> forall locs,
  let speeds := snd (gather_indices ieee locs) in
  Z.of_nat (length speeds) <= 2 ^ 53 -> Forall speed_ok speeds -> Exists running speeds ->
  suits kind dims (length speeds) -> (forall l, start_weights ieee (prod dims) speeds = Some l -> suits_weights kind l) ->
  exists indices part cfs st0 bound,
    hpx_partition ieee kind fuel (map (fun _ => 0) dims) dims locs = Some (indices, part) /\
    configs (Regular dims t) part w (length speeds) = Some cfs /\
    hsim_init nanos steerers cfs dflt start (steps * nanos) ini = Ok st0 /\
    (forall es, hsim_run upd nb edge nanos steerers cfs st0 es <> Fail) /\
    (forall es st, hsim_run upd nb edge nanos steerers cfs st0 es = Ok st -> (length es <= bound)%nat) /\
    (forall es st, hsim_run upd nb edge nanos steerers cfs st0 es = Ok st -> ~ hfinished st ->
       exists e st', hsim_step upd nb edge nanos steerers cfs st e = Ok st') /\
    forall es st, hsim_run upd nb edge nanos steerers cfs st0 es = Ok st -> hfinished st ->
      forall c, in_grid dims c -> exists r gs i nd,
        groups_of indices r = Some gs /\ In i gs /\ (forall r' gs', groups_of indices r' = Some gs' -> In i gs' -> r' = r) /\
        nth_error (hs_nodes st) i = Some nd /\ cells d part i c /\ (forall j, (j < length speeds)%nat -> cells d part j c -> j = i) /\
        final_value nanos start last sts (start + steps) c (ser c) (n_old nd c) /\ n_step nd = (start + steps)%nat /\ n_nano nd = O.
Proof.
  intros Hcomm locs speeds Hn Hs Hr Hk Hkw. destruct (partition_of speeds Hn Hs Hr Hk Hkw) as (l & El & Hcov).
  set (part := make_partition kind fuel (map (fun _ => 0) dims) dims l) in *.
  assert (Hset : setting d (Regular dims t) (in_grid dims) (moore d dims t) w) by (constructor; auto).
  assert (Hsym : symmetric (moore d dims t) \/ (w <= 2)%nat /\ sts = []) by (left; now apply moore_sym).
  assert (Hreads : reads_within (in_grid dims) (moore d dims t) nb) by now apply stencil_reads.
  assert (Hini' : forall i c, (i < length speeds)%nat -> grown (moore d dims t) w (cells d part i) c -> ini i c = g0 c).
  { intros i c Hi Hg. apply Hini. eapply (grown_inside d _ _ _ w (setting_laws _ _ _ _ _ Hset)); eauto. eapply cover_ins; eauto. }
  destruct (C202_hpx_final_grid upd nb edge dflt nanos d (Regular dims t) (in_grid dims) (moore d dims t) w (length speeds) part area g0 ini start last steps sts) as (cfs & st0 & E1 & E2 & H); auto.
  destruct (C203_hpx_no_deadlock upd nb edge dflt nanos d (Regular dims t) (in_grid dims) (moore d dims t) w (length speeds) part area g0 ini start last (steps * nanos) sts) as (cfs' & st0' & bound & E1' & E2' & D1 & D2 & D3); auto; [lia|].
  destruct (C202_hpx_equals_serial upd nb edge dflt nanos d (Regular dims t) (in_grid dims) (moore d dims t) w (length speeds) part area g0 ini start last (steps * nanos) sts) as (cfs2 & st2 & F1 & F2 & F3); auto; [lia|].
  rewrite E1 in E1', F1. injection E1' as <-. injection F1 as <-. rewrite E2 in E2', F2. injection E2' as <-. injection F2 as <-.
  exists (fst (gather_indices ieee locs)), part, cfs, st0, bound.
  split; [unfold hpx_partition; rewrite (surjective_pairing (gather_indices ieee locs)); fold speeds; rewrite El; reflexivity|].
  split; [exact E1|]. split; [exact E2|]. split; [exact D1|]. split; [exact D2|]. split; [exact D3|].
  intros es st Hrun Hfin c Hc. destruct (F3 es st Hrun) as [Hlen _]. destruct Hcov as (_ & Hdis & Hex).
  destruct (proj1 (Hex c) Hc) as (i & Hi & Hci). destruct (nth_error (hs_nodes st) i) as [nd|] eqn:End; [|apply nth_error_None in End; lia].
  destruct (H es st Hrun Hfin i nd c End Hci) as (V1 & V2 & V3 & V4).
  destruct (C206_locality_indices ieee locs) as (_ & _ & G & _). destruct (G i Hi) as (r & gs & _ & G1 & G2 & G3).
  exists r, gs, i, nd. split; [exact G1|]. split; [exact G2|]. split; [exact G3|]. split; [exact End|]. split; [exact Hci|].
  split; [intros j Hj Hcj; eapply Hdis; eauto|]. split; [split; assumption|]. split; assumption.
Qed.

End Complete.
Print Assumptions C207_hipar_simulation.
Print Assumptions C208_hpx_simulation.

(** The grid of 5 x 6 cells, two localities with speeds 1, 2 and 0.5, the latter
    one with speed guide 2; Z-curve. *)
Definition ex_locs : list (spec_float * list spec_float) := [(pow2 0, [pow2 0; pow2 1]); (pow2 1, [pow2 (-1)])].

Example C207_C208_hypotheses :
  let speeds := snd (gather_indices ieee ex_locs) in
  speeds = [pow2 0; pow2 1; pow2 0] /\ Forall speed_ok speeds /\ Exists running speeds /\ suits ZCurve [6; 5] (length speeds) /\
  start_weights ieee (prod [6; 5]) speeds = Some [7; 15; 8] /\
  Forall (fun o => near (diagonal 2 1) o (diagonal 2 0)) ex_offs /\ (forall c, In c ex_area <-> in_grid [6; 5] c).
Proof.
  assert (E : snd (gather_indices ieee ex_locs) = [pow2 0; pow2 1; pow2 0]) by (vm_compute; reflexivity).
  cbn zeta. rewrite E. split; [reflexivity|]. split; [|split; [|split; [exact I|split; [vm_compute; reflexivity|split; apply C21_hypotheses]]]].
  - rewrite !Forall_cons_iff. split; [|split; [|split; [|constructor]]]; right; repeat split; vm_compute; reflexivity.
  - apply Exists_cons_hd. repeat split; vm_compute; reflexivity.
Qed.

Definition owners (part : nat -> option indices) (n : nat) (c : coord) : list nat :=
  filter (fun i => match part i with Some r => match reg_count r c with Some b => b | _ => false end | _ => false end) (seq 0 n).

Example C208_example :
  option_map (fun '(indices, part) => (indices, map (owners part 3) ex_cells,
    option_map (fun st => map (fun c => map (fun i => option_map (fun nd => n_old nd c) (nth_error (hs_nodes st) i)) (owners part 3 c)) ex_cells)
      (hpx_run ex_upd ex_nb (-7) 0 1 [] ex_grid part 2 3 4 2 (fun _ => ex_ini) [] 12)))
    (hpx_partition ieee ZCurve 1500 [0; 0] [6; 5] ex_locs) =
  Some ([0; 2; 3]%nat, [[0]; [1]; [1]; [1]; [2]]%nat, Some [[Some 178]; [Some 377]; [Some 645]; [Some 516]; [Some 697]]) /\
  map (fst (serial_run ex_upd ex_nb (-7) 1 [] ex_area 4 2 ex_ini)) ex_cells = [178; 377; 645; 516; 697].
Proof. split; vm_compute; reflexivity. Qed.

Example C207_example :
  option_map (fun part => option_map (fun st => map (fun c => map (fun i => option_map (fun nd => n_old nd c) (nth_error (s_nodes st) i)) (owners part 3 c)) ex_cells)
      (ex_run ex_upd ex_nb (-7) 0 1 [] ex_grid part 2 3 4 2 (fun _ => ex_ini) 40))
    (hipar_partition ieee Striping 1500 [0; 0] [6; 5] [pow2 0; pow2 1; pow2 0]) =
  Some (Some [[Some 178]; [Some 377]; [Some 645]; [Some 516]; [Some 697]]).
Proof. vm_compute. reflexivity. Qed.
