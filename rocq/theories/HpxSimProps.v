(** C202-C204: simulations on top of HPX. *)
From Coq Require Import Permutation.
From Verif Require Import Base RegionSpec RegionModel RegionRep RegionIterModel RegionStreaks RegionOpsModel
  RegionOps CoordModel CoordSpec CoordFacts HaloSpec PartitionSpec PartitionManagerModel HaloFacts
  PartitionManagerSpec PartitionModel StripingProps PartitionManagerFacts PartitionManagerProps TopologyFacts PatchModel AdapterModel ScheduleSpec ScheduleFacts
  StepperModel StepperSpec StepperFacts ConfigFacts SfcFacts StepperProps HpxLinkModel HpxSimModel HpxSimSpec HpxSimFacts.

(** ** Steerers that commute *)

Section Fold.
Context {A B : Type} (f : B -> A -> B).

Definition swaps (x y : A) : Prop := forall b, f (f b x) y = f (f b y) x.

Lemma pairs_perm l l' : Permutation l l' -> ForallOrdPairs swaps l -> ForallOrdPairs swaps l'.
Proof.
  induction 1; intros Hl; auto.
  - inversion Hl; subst. constructor; [|auto]. eapply Permutation_Forall; eauto.
  - inversion Hl as [|a b H1 H2]; subst. inversion H1; subst. inversion H2; subst.
    constructor; [constructor; [|auto]|constructor; auto]. intros b. symmetry. apply H3.
Qed.

Lemma fold_perm l l' : Permutation l l' -> ForallOrdPairs swaps l -> forall b, fold_left f l b = fold_left f l' b.
Proof.
  induction 1; intros Hl b; cbn [fold_left]; auto.
  - apply IHPermutation. now inversion Hl.
  - inversion Hl as [|a c H1 H2]; subst. inversion H1; subst. now rewrite H3.
  - rewrite IHPermutation1 by auto. apply IHPermutation2. eapply pairs_perm; eauto.
Qed.

Lemma pairs_nth l : (forall i j x y, i <> j -> nth_error l i = Some x -> nth_error l j = Some y -> swaps x y) -> ForallOrdPairs swaps l.
Proof.
  induction l as [|x l IH]; intros H; constructor.
  - apply Forall_forall. intros y Hy. apply In_nth_error in Hy. destruct Hy as [j Hj]. apply (H O (S j)); auto.
  - apply IH. intros i j y z Hij Hi Hj. apply (H (S i) (S j)); auto.
Qed.

End Fold.

Lemma act_permuted {C} nanos start last (sts : list (nat * @action C)) ord : steerers_commute sts ->
  let ss := make_steerers nanos start last sts in
  is_order (length ss) ord = true -> forall T0 k c x, act_at (permute ord ss) T0 k c x = act_at ss T0 k c x.
Proof.
  intros Hc ss Hord T0 k c x. unfold act_at. symmetry. apply fold_perm; [now apply permute_perm|].
  apply pairs_nth. intros i j a b Hij Ha Hb y. unfold ss, make_steerers in Ha, Hb. rewrite nth_error_map in Ha, Hb.
  destruct (nth_error sts i) as [[p f]|] eqn:Ei; [|discriminate]. destruct (nth_error sts j) as [[q g]|] eqn:Ej; [|discriminate].
  injection Ha as <-. injection Hb as <-. unfold calls_at. cbn [ad_nanos].
  destruct (called (mkAdapter nanos p start last) _), (called (mkAdapter nanos q start last) _); cbn [fold_left]; auto.
  unfold ad_event, ad_last_nano, ad_first_nano. cbn [ad_last ad_first ad_nanos]. symmetry. apply (Hc i j p q f g Hij Ei Ej).
Qed.

Section Props.
Context {C : Type} (upd : nat -> coord -> list C -> C) (nb : coord -> list (option coord)) (edge dflt : C) (nanos : nat).
Context (d : nat) (sp : space) (I : coord -> Prop) (E : neigh) (w n : nat) (part : nat -> option indices).
Context (area : list coord) (g0 : grid C) (ini : nat -> grid C) (start last N : nat) (sts : list (nat * @action C)).

Let steerers := make_steerers nanos start last sts.
Let ser k := fst (serial_after upd nb edge nanos start last sts area g0 k).
Let T0 := (start * nanos)%nat.

Hypothesis Hset : setting d sp I E w.
Hypothesis Hsym : symmetric E \/ (w <= 2)%nat /\ sts = [].
Hypothesis Hcover : exact_cover d n part I.
Hypothesis Hreads : reads_within I E nb.
Hypothesis Harea : forall c, In c area <-> I c.
Hypothesis Hnanos : (1 <= nanos)%nat.
Hypothesis Hlast : (start <= last)%nat.
Hypothesis Hsts : Forall (fun s => (1 <= fst s)%nat) sts.
Hypothesis Hcomm : steerers_commute sts.
Hypothesis Hini : forall i c, (i < n)%nat -> grown E w (cells d part i) c -> ini i c = g0 c.

Lemma hrun_facts : exists cfs st0,
  configs sp part w n = Some cfs /\ length cfs = n /\
  hsim_init nanos steerers cfs dflt start N ini = Ok st0 /\
  hsim_inv nanos steerers ser T0 w N cfs (fun _ => O) st0 /\
  (forall i cf, nth_error cfs i = Some cf -> (i < n)%nat /\ config_spec d I E w n part i cf) /\
  (forall ms st, hsim_inv nanos steerers ser T0 w N cfs ms st ->
     (forall es, match hsim_run upd nb edge nanos steerers cfs st es with
       | Ok st' => exists ms', hsim_inv nanos steerers ser T0 w N cfs ms' st' /\ (hmeasure w cfs st' + length es <= hmeasure w cfs st)%nat
       | Wait => True
       | Fail => False
       end) /\
     (forall i nd, nth_error (hs_nodes st) i = Some nd -> ~ done nd -> exists e st', hsim_step upd nb edge nanos steerers cfs st e = Ok st')).
Proof.
  pose proof (setting_laws d sp I E w Hset) as L. assert (Hw : (1 <= w)%nat) by (destruct Hset; auto).
  pose proof (adapters_ok nanos start last sts Hlast Hsts) as Had. fold steerers T0 in Had.
  assert (Hss : forall k c, I c -> ser (S k) c = new_cell upd nb edge (Nat.modulo (T0 + k) nanos) (st steerers ser T0 k) c).
  { apply (ser_step upd nb edge nanos d I E w n part area g0 ini start last sts Hsym Harea Hnanos Hlast Hsts Hini). }
  assert (Hact : forall ord, is_order (length steerers) ord = true -> forall k c x, act_at (permute ord steerers) T0 k c x = act_at steerers T0 k c x).
  { intros ord Hord k c x. apply (act_permuted nanos start last sts ord Hcomm Hord). }
  destruct (configs_ok d sp I E w L Hw n part Hcover) as (cfs & Ec & Lc & Hspec & Hmatch).
  assert (Hcfs : forall i cf, nth_error cfs i = Some cf -> cfg_ok nb I steerers w cf).
  { intros i cf H. destruct (Hspec i cf H) as [Hi S]. eapply spec_cfg_ok; eauto.
    destruct Hsym as [Hs|[Hs1 Hs2]]; [auto|]. right. split; [exact Hs1|]. unfold steerers. now rewrite Hs2. }
  assert (Ho : forall i cf j cs, nth_error cfs i = Some cf -> In (j, cs) (cf_out cf) -> j <> i /\ (j < length cfs)%nat).
  { intros i cf j cs H Hj. destruct (Hspec i cf H) as [Hi S]. rewrite Lc. eapply cs_out_lt; eauto. }
  assert (Hin : forall i cf j cs, nth_error cfs i = Some cf -> In (j, cs) (cf_in cf) -> j <> i /\ (j < length cfs)%nat).
  { intros i cf j cs H Hj. destruct (Hspec i cf H) as [Hi S]. rewrite Lc. eapply cs_in_lt; eauto. }
  assert (Hig : forall i cf, nth_error cfs i = Some cf -> igood steerers ser T0 (ini i) (fun c => inner cf w c \/ rim cf w c \/ halo cf c)).
  { intros i cf H c Hc. destruct (Hspec i cf H) as [Hi S]. unfold ser. cbn [serial_after fst]. unfold T0, steerers. rewrite act_steered, Nat.add_0_r by auto.
    f_equal. apply Hini; [exact Hi|].
    assert (Hown : forall c, cells d part i c -> grown E w (cells d part i) c).
    { intros c1 H1. exists c1. split; [exact H1|]. eapply walk_more; [exact L| |apply Nat.le_0_l|reflexivity].
      eapply cover_ins; eauto. }
    destruct Hc as [Hc|[Hc|(j & cs & Hj & Hc)]].
    - apply Hown. unfold inner in Hc. apply (cs_own _ _ _ _ _ _ _ _ S). right. apply (cs_inner _ _ _ _ _ _ _ _ S) in Hc; [|lia].
      rewrite Nat.sub_diag in Hc. now apply (proj1 (grown_0 _ _ _)) in Hc.
    - apply Hown. apply (cs_own _ _ _ _ _ _ _ _ S). left. apply (cs_rim _ _ _ _ _ _ _ _ S) in Hc; [|lia].
      rewrite Nat.sub_diag in Hc. now apply (proj1 (grown_0 _ _ _)) in Hc.
    - apply (cs_in _ _ _ _ _ _ _ _ S j cs c Hj) in Hc. apply Hc. }
  assert (H0 : exists st0, hsim_init nanos steerers cfs dflt start N ini = Ok st0 /\ hsim_inv nanos steerers ser T0 w N cfs (fun _ => O) st0).
  { eapply hsim_init_ok; eauto. }
  destruct H0 as (st0 & E0 & Inv0).
  exists cfs, st0. split; [exact Ec|]. split; [exact Lc|]. split; [exact E0|]. split; [exact Inv0|]. split; [exact Hspec|].
  intros ms st Inv. split.
  - intros es. eapply hsim_run_ok; eauto.
  - intros i nd Hnd Hd. eapply hprogress with (v := S (ms i)); eauto.
Qed.

(** Nodes on top of HPX agree with the serial simulation, whatever the order
    of parcels, links and steerers. *)
Theorem C202_hpx_equals_serial : exists cfs st0,
  configs sp part w n = Some cfs /\ hsim_init nanos (make_steerers nanos start last sts) cfs dflt start N ini = Ok st0 /\
  forall es st, hsim_run upd nb edge nanos (make_steerers nanos start last sts) cfs st0 es = Ok st ->
    length (hs_nodes st) = n /\
    forall i nd, nth_error (hs_nodes st) i = Some nd ->
      node_matches (fun k => fst (serial_after upd nb edge nanos start last sts area g0 k)) (serial_steered upd nb edge nanos start last sts area g0) nanos (start * nanos) N w (cells d part i) nd.
Proof.
  destruct hrun_facts as (cfs & st0 & Ec & Lc & E0 & Inv0 & Hspec & Hrun). fold steerers. exists cfs, st0. split; [exact Ec|]. split; [exact E0|].
  intros es st Hes. pose proof (proj1 (Hrun _ _ Inv0) es) as H. rewrite Hes in H. destruct H as (ms & Inv & _).
  rewrite (hi_len _ _ _ _ _ _ _ _ _ Inv). split; [exact Lc|]. intros i nd Hnd.
  destruct (nth_error cfs i) as [cf|] eqn:Hcf.
  - destruct (Hspec i cf Hcf) as [Hi S]. eapply inv_matches with (ini := ini); eauto. eapply (hi_node _ _ _ _ _ _ _ _ _ Inv); eauto.
  - apply nth_error_None in Hcf. assert (nth_error (hs_nodes st) i <> None) by congruence. apply nth_error_Some in H.
    rewrite (hi_len _ _ _ _ _ _ _ _ _ Inv) in H. lia.
Qed.

(** Whatever the order of events: no exceptions, no deadlock, no endless run. *)
Theorem C203_hpx_no_deadlock : exists cfs st0 bound,
  configs sp part w n = Some cfs /\ hsim_init nanos (make_steerers nanos start last sts) cfs dflt start N ini = Ok st0 /\
  (forall es, hsim_run upd nb edge nanos (make_steerers nanos start last sts) cfs st0 es <> Fail) /\
  (forall es st, hsim_run upd nb edge nanos (make_steerers nanos start last sts) cfs st0 es = Ok st -> (length es <= bound)%nat) /\
  (forall es st, hsim_run upd nb edge nanos (make_steerers nanos start last sts) cfs st0 es = Ok st -> ~ hfinished st ->
     exists e st', hsim_step upd nb edge nanos (make_steerers nanos start last sts) cfs st e = Ok st').
Proof.
  destruct hrun_facts as (cfs & st0 & Ec & Lc & E0 & Inv0 & Hspec & Hrun). fold steerers. exists cfs, st0, (hmeasure w cfs st0).
  split; [exact Ec|]. split; [exact E0|]. split; [|split].
  - intros es Hes. pose proof (proj1 (Hrun _ _ Inv0) es) as H. now rewrite Hes in H.
  - intros es st Hes. pose proof (proj1 (Hrun _ _ Inv0) es) as H. rewrite Hes in H. destruct H as (ms & _ & H). lia.
  - intros es st Hes Hf. pose proof (proj1 (Hrun _ _ Inv0) es) as H. rewrite Hes in H. destruct H as (ms & Inv & _).
    assert (Hex : exists i nd, nth_error (hs_nodes st) i = Some nd /\ ~ done nd).
    { assert (Hall : forall l : list (node C), (exists i nd, nth_error l i = Some nd /\ ~ done nd) \/ (forall i nd, nth_error l i = Some nd -> done nd)).
      { clear. induction l as [|x l IH]; [right; intros [|i] nd H; discriminate|]. destruct (done_dec x) as [Hx|Hx].
        - destruct IH as [(i & nd & H1 & H2)|IH]; [left; exists (S i), nd; auto|].
          right. intros [|i] nd H; cbn in H; [injection H as <-; exact Hx|eauto].
        - left. exists O, x. auto. }
      destruct (Hall (hs_nodes st)) as [H|H]; [exact H|]. exfalso. apply Hf. intros i nd Hnd. apply (H i nd Hnd). }
    destruct Hex as (i & nd & Hnd & Hd). apply (proj2 (Hrun _ _ Inv) i nd Hnd Hd).
Qed.

End Props.

(** After [steps] steps in full, the nodes' grids at a synchronisation point
    are the SerialSimulator's grid; steerers may have changed some cells. *)
Theorem C202_hpx_final_grid {C} (upd : nat -> coord -> list C -> C) nb (edge dflt : C) nanos d sp I E w n part area (g0 : grid C) ini start last steps
    (sts : list (nat * @action C)) :
  setting d sp I E w -> symmetric E \/ (w <= 2)%nat /\ sts = [] -> exact_cover d n part I -> reads_within I E nb ->
  (forall c, In c area <-> I c) -> NoDup area -> (1 <= nanos)%nat ->
  (start + steps <= last)%nat -> Forall (fun s => (1 <= fst s)%nat) sts -> steerers_commute sts -> steers_alike start last sts ->
  (forall i c, (i < n)%nat -> grown E w (cells d part i) c -> ini i c = g0 c) ->
  Nat.modulo (steps * nanos) w = O ->
  let steerers := make_steerers nanos start last sts in
  exists cfs st0,
    configs sp part w n = Some cfs /\ hsim_init nanos steerers cfs dflt start (steps * nanos) ini = Ok st0 /\
    forall es st, hsim_run upd nb edge nanos steerers cfs st0 es = Ok st -> hfinished st ->
      forall i nd c, nth_error (hs_nodes st) i = Some nd -> cells d part i c ->
        let x := fst (serial_run upd nb edge nanos steerers area start steps g0) c in
        (n_old nd c = x \/ n_old nd c = steered nanos start last sts ((start + steps) * nanos) c x) /\
        (sts = [] -> n_old nd c = x) /\
        n_step nd = (start + steps)%nat /\ n_nano nd = O.
Proof.
  intros Hs Hsym Hcov Hr Ha Hna Hn Hl Hsts Hcomm Halike Hini Hsync steerers.
  destruct (C202_hpx_equals_serial upd nb edge dflt nanos d sp I E w n part area g0 ini start last (steps * nanos) sts) as (cfs & st0 & E1 & E2 & H); auto; [lia|].
  exists cfs, st0. split; [exact E1|]. split; [exact E2|]. intros es st Hrun Hfin i nd c Hnd Hc.
  destruct (H es st Hrun) as [Hlen Hm]. destruct (Hm i nd Hnd) as (rim & ker & rims & _ & _ & _ & _ & _ & Hp).
  destruct (Hfin i nd Hnd) as [Hpc Hleft]. rewrite Hleft, Nat.sub_0_r in Hp. destruct (Hp Hpc) as (_ & Ht & Hlt & _ & Hv).
  specialize (Hv Hsync c Hc).
  assert (Hi : (i < n)%nat) by (rewrite <- Hlen; apply nth_error_Some; congruence).
  assert (HIc : I c) by (eapply cover_ins; eauto).
  pose proof (serial_run_after upd nb edge nanos start last I area g0 Ha Hna (reads_closed d sp I E w nb Hs Hr) Hn sts Halike steps Hl c HIc) as Hx.
  cbn zeta. fold steerers in Hx. rewrite Hx.
  assert (Hst : serial_steered upd nb edge nanos start last sts area g0 (steps * nanos) c = fst (serial_after upd nb edge nanos start last sts area g0 (steps * nanos)) c \/
    serial_steered upd nb edge nanos start last sts area g0 (steps * nanos) c =
    steered nanos start last sts ((start + steps) * nanos) c (fst (serial_after upd nb edge nanos start last sts area g0 (steps * nanos)) c)).
  { unfold serial_steered, steer_at. destruct (steps * nanos)%nat eqn:Ek; [left; reflexivity|right].
    replace ((start + steps) * nanos)%nat with (start * nanos + S n0)%nat by lia. reflexivity. }
  split; [|split].
  - destruct Hv as [Hv|Hv]; [auto|]. rewrite Hv. exact Hst.
  - intros Hnil. destruct Hv as [Hv|Hv]; [exact Hv|]. rewrite Hv. destruct Hst as [Hst|Hst]; [exact Hst|]. rewrite Hst, Hnil. unfold steered. cbn [fold_left].
    now destruct (_ && _).
  - unfold global_step in Ht.
    assert (Hq : n_step nd = (start + steps)%nat) by (destruct (Nat.lt_trichotomy (n_step nd) (start + steps)) as [Hq|[Hq|Hq]]; [nia|exact Hq|nia]).
    split; [exact Hq|]. rewrite Hq in Ht. nia.
Qed.

Print Assumptions C202_hpx_equals_serial.
Print Assumptions C202_hpx_final_grid.
Print Assumptions C203_hpx_no_deadlock.

(** ** Examples *)

(** Parcels arrive, the latest ones first; each of [n] nodes serves its links in
    turns, starting with the last of three. *)
Definition hpx_events (n : nat) (ord : list nat) (rounds : nat) : list hevent :=
  concat (repeat (flat_map (fun i => map (fun k => HNode i k ord) [2; 1; 0]%nat) (seq 0 n) ++
    flat_map (fun i => flat_map (fun j => [HArrive i j 1; HArrive i j 0]) (seq 0 n)) (seq 0 n)) rounds).

Definition hpx_run {C} upd nb (edge dflt : C) nanos sts sp part w n start N ini ord rounds :=
  match configs sp part w n with
  | Some cfs =>
      match hsim_init nanos sts cfs dflt start N ini with
      | Ok st0 =>
          match hsim_run upd nb edge nanos sts cfs st0 (hsim_try upd nb edge nanos sts cfs (hpx_events n ord rounds) st0) with
          | Ok st => Some st
          | _ => None
          end
      | _ => None
      end
  | None => None
  end.

(** The simulation of [C21_C22_example]; its hypotheses are those of
    [C21_hypotheses]; without steerers there are none which do not commute. *)
Example C202_C203_example :
  option_map (fun st => (map n_pc (hs_nodes st), map n_left (hs_nodes st), map n_step (hs_nodes st),
    map (fun '(i, c) => option_map (fun nd => n_old nd c) (nth_error (hs_nodes st) i))
      [(0%nat, [0; 0]); (0%nat, [2; 4]); (1%nat, [3; 1]); (1%nat, [3; 2]); (2%nat, [5; 4])]))
    (hpx_run ex_upd ex_nb (-7) 0 2 [] ex_grid ex_part 2 3 4 6 (fun _ => ex_ini) [] 20) =
  Some ([PStep; PStep; PStep], [0; 0; 0]%nat, [7; 7; 7]%nat, [Some 419; Some 714; Some 500; Some 900; Some 577]).
Proof. vm_compute. reflexivity. Qed.

(** Two steerers which commute. *)
Definition hpx_sts : list (nat * @action Z) := [(1%nat, fun _ _ _ x => x + 1); (2%nat, fun s _ c x => x + 7 * Z.of_nat s + hd 0 c)].

Example C202_hypotheses : Forall (fun s => (1 <= fst s)%nat) hpx_sts /\ steerers_commute hpx_sts.
Proof.
  split; [repeat constructor|]. intros [|[|[|i]]] [|[|[|j]]] p q f g Hij Hi Hj s e c x; cbn in Hi, Hj; try congruence;
    injection Hi as <- <-; injection Hj as <- <-; lia.
Qed.

Example C202_steered_example :
  let run ord := option_map (fun st => map (fun '(i, c) => option_map (fun nd => n_old nd c) (nth_error (hs_nodes st) i))
      [(0%nat, [0; 0]); (0%nat, [2; 4]); (1%nat, [3; 1])])
    (hpx_run ex_upd ex_nb (-7) 0 2 (make_steerers 2 4 7 hpx_sts) ex_grid ex_part 2 3 4 2 (fun _ => ex_ini) ord 6) in
  run [0; 1]%nat = run [1; 0]%nat /\ run [0; 1]%nat <> None.
Proof. cbn zeta. split; vm_compute; [reflexivity|discriminate]. Qed.

(** ** Several steerers *)

Lemma hpx_run_run {C} upd nb (edge dflt : C) nanos sts sp part w n start N (g0 : grid C) ord rounds c v :
  obind (hpx_run upd nb edge dflt nanos sts sp part w n start N (fun _ => g0) ord rounds) (fun st =>
    if forallb (fun nd => match n_pc nd with PStep => Nat.eqb (n_left nd) 0 | _ => false end) (hs_nodes st)
    then option_map (fun nd => n_old nd c) (nth_error (hs_nodes st) 0) else None) = Some v ->
  exists cfs st0 es st nd, configs sp part w n = Some cfs /\ hsim_init nanos sts cfs dflt start N (fun _ => g0) = Ok st0 /\
    hsim_run upd nb edge nanos sts cfs st0 es = Ok st /\ hfinished st /\ nth_error (hs_nodes st) 0 = Some nd /\ n_old nd c = v.
Proof.
  unfold hpx_run. destruct (configs sp part w n) as [cfs|]; [|discriminate].
  destruct (hsim_init nanos sts cfs dflt start N (fun _ => g0)) as [st0| |] eqn:E3; try discriminate.
  destruct (hsim_run _ _ _ _ _ cfs st0 _) as [st| |] eqn:E4; try discriminate. cbn [obind].
  destruct (forallb _ (hs_nodes st)) eqn:Ef; [|discriminate].
  destruct (nth_error (hs_nodes st) 0) as [nd|] eqn:E5; try discriminate. cbn [option_map]. intros E2. injection E2 as Hv.
  exists cfs, st0. eexists. exists st, nd. split; [reflexivity|]. split; [exact E3|]. split; [exact E4|]. split; [|auto].
  intros i nd' Hnd'. rewrite forallb_forall in Ef. specialize (Ef nd' (nth_error_In _ _ Hnd')).
  destruct (n_pc nd'); try discriminate. split; [reflexivity|now apply Nat.eqb_eq].
Qed.

(** One steerer increments, the other one doubles. *)
Definition hpx_clash : list (nat * @action Z) := [(1%nat, fun _ _ _ x => x + 1); (1%nat, fun _ _ _ x => 2 * x)].

(** Two runs of one simulation with two steerers, both complete, which differ
    in the final value of a cell; so at least one of them differs from the
    serial simulation. *)
Theorem C204_concurrent_steerers_refuted : exists C (upd : nat -> coord -> list C -> C) (edge dflt : C) nanos dim t offs w n part area (g0 : grid C) start last N sts
    cfs st0 es es' st st' nd nd' c,
  length dim = 2%nat /\ length t = 2%nat /\ Forall (fun x => 0 < x) dim /\ Forall (fun x => Z.of_nat w <= x) dim /\
  Forall (fun o => near (diagonal 2 1) o (diagonal 2 0)) offs /\
  exact_cover 1 n part (in_grid dim) /\ (forall c, In c area <-> in_grid dim c) /\
  Forall (fun s => (1 <= fst s)%nat) sts /\ N = ((last - start) * nanos)%nat /\ Nat.modulo N w = O /\
  let steerers := make_steerers nanos start last sts in
  let nb := stencil_nb t dim offs in
  configs (Regular dim t) part w n = Some cfs /\ hsim_init nanos steerers cfs dflt start N (fun _ => g0) = Ok st0 /\
  hsim_run upd nb edge nanos steerers cfs st0 es = Ok st /\ hfinished st /\ nth_error (hs_nodes st) 0 = Some nd /\
  hsim_run upd nb edge nanos steerers cfs st0 es' = Ok st' /\ hfinished st' /\ nth_error (hs_nodes st') 0 = Some nd' /\
  cells 1 part 0 c /\ n_old nd c <> n_old nd' c.
Proof.
  exists Z, ex_upd, (-7), 0, 1%nat, [6; 5], [false; true], ex_offs, 2%nat, 3%nat, ex_part, ex_area, ex_ini, 0%nat, 2%nat, 2%nat, hpx_clash.
  destruct C21_hypotheses as (H1 & H2 & H3).
  assert (H4 : cells 1 ex_part 0 [0; 0]) by (eexists; split; [vm_compute; reflexivity|split; vm_compute; reflexivity]).
  assert (H5 : Forall (fun x => 0 < x) [6; 5]) by (repeat constructor).
  assert (H6 : Forall (fun x => Z.of_nat 2 <= x) [6; 5]) by (repeat constructor; lia).
  assert (H7 : Forall (fun s => (1 <= fst s)%nat) hpx_clash) by (repeat constructor).
  destruct (hpx_run_run ex_upd ex_nb (-7) 0 1 (make_steerers 1 0 2 hpx_clash) ex_grid ex_part 2 3 0 2 ex_ini [0; 1]%nat 12 [0; 0] 54)
    as (cfs & st0 & es & st & nd & R1 & R2 & R3 & R4 & R5 & Hv); [vm_compute; reflexivity|].
  destruct (hpx_run_run ex_upd ex_nb (-7) 0 1 (make_steerers 1 0 2 hpx_clash) ex_grid ex_part 2 3 0 2 ex_ini [1; 0]%nat 12 [0; 0] 2009)
    as (cfs' & st0' & es' & st' & nd' & R1' & R2' & R3' & R4' & R5' & Hv'); [vm_compute; reflexivity|].
  change (Regular [6; 5] [false; true]) with ex_grid. rewrite R1 in R1'. injection R1' as <-. rewrite R2 in R2'. injection R2' as <-.
  exists cfs, st0, es, es', st, st', nd, nd', [0; 0]. split; [reflexivity|]. split; [reflexivity|]. split; [exact H5|]. split; [exact H6|].
  split; [exact H1|]. split; [exact H2|]. split; [exact H3|]. split; [exact H7|]. split; [reflexivity|]. split; [reflexivity|]. cbn zeta.
  split; [exact R1|]. split; [exact R2|]. split; [exact R3|]. split; [exact R4|]. split; [exact R5|].
  split; [exact R3'|]. split; [exact R4'|]. split; [exact R5'|]. split; [exact H4|]. rewrite Hv, Hv'. discriminate.
Qed.
Print Assumptions C204_concurrent_steerers_refuted.
