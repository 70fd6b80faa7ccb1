(** C178, C179: the CUDAStepper. *)
From Verif Require Import Base RegionSpec RegionModel RegionRep RegionIterModel RegionOpsModel CoordModel CoordSpec CoordFacts HaloSpec PartitionSpec PartitionManagerModel HaloFacts
  PartitionManagerSpec PartitionModel StripingProps PartitionManagerFacts PartitionManagerProps PatchModel AdapterModel CudaGridModel StepperModel StepperSpec StepperFacts ConfigFacts StepperProps
  CudaStepperModel CudaStepperSpec CudaStepperFacts.

(** ** C178 *)

(** If there is one node only, and if there are no more cells than blocks in a
    launch. *)
Theorem C178_single_node : forall C (upd : nat -> coord -> list C -> C) nb (edge dflt : C) nanos due d sp I E w part area (g0 : grid C) ini start last N
    (sts : list (nat * @action C)),
  setting d sp I E w -> exact_cover d 1 part I -> reads_within I E nb -> (forall c, In c area <-> I c) -> (length area <= 200)%nat ->
  (1 <= nanos)%nat -> (start <= last)%nat -> Forall (fun s => (1 <= fst s)%nat) sts -> (forall c, I c -> ini 0%nat c = g0 c) ->
  let steerers := make_steerers nanos start last sts in
  exists cfs st0,
    configs sp part w 1 = Some cfs /\ csim_init nanos steerers due cfs dflt start N ini = Ok st0 /\
    (forall es, match csim_run upd nb edge nanos steerers due cfs st0 es with
      | Ok st => exists nd, cs_nodes st = [nd] /\
          device_matches (fun k => fst (serial_after upd nb edge nanos start last sts area g0 k)) (serial_steered upd nb edge nanos start last sts area g0)
            nanos (start * nanos) N I due nd
      | Wait => True
      | Fail => False
      end) /\
    exists es st, csim_run upd nb edge nanos steerers due cfs st0 es = Ok st /\ cfinished st.
Proof.
  intros C upd nb edge dflt nanos due d sp I E w part area g0 ini start last N sts Hset Hcov Hreads Harea Hsize Hn Hl Hsts Hini steerers.
  pose proof (setting_laws d sp I E w Hset) as L. assert (Hw : (1 <= w)%nat) by (destruct Hset; auto).
  destruct (configs_ok d sp I E w L Hw 1 part Hcov) as (cfs & Ec & Lc & Hspec & _).
  destruct cfs as [|cf [|? ?]]; try discriminate Lc. destruct (Hspec O cf eq_refl) as [_ S0].
  pose proof (single_alone d sp I E w part cf Hset Hcov S0) as Hal.
  set (ser := fun k => fst (serial_after upd nb edge nanos start last sts area g0 k)).
  assert (Hser : forall k c, I c -> ser (S k) c = new_cell upd nb edge (Nat.modulo (start * nanos + k) nanos) (st steerers ser (start * nanos) k) c).
  { intros k c Hc. rewrite <- (new_cell_ext upd nb edge _ (serial_steered upd nb edge nanos start last sts area g0 k)) by (intros; now apply ste_st).
    unfold serial_steered, ser. cbn [serial_after]. destruct (serial_after upd nb edge nanos start last sts area g0 k) as [cur new] eqn:Es.
    cbn [serial_nano fst]. destruct (update_region_spec upd nb edge (Nat.modulo k nanos) area (steer_at nanos start last sts k cur) new) as [H _].
    rewrite H by (now apply Harea). f_equal. rewrite Nat.add_comm, Nat.mod_add by lia. reflexivity. }
  assert (Hnb : forall c c', I c -> In (Some c') (nb c) -> I c').
  { intros c c' Hc Hin. eapply sl_closed; eauto. }
  pose proof (adapters_ok nanos start last sts Hl Hsts) as Hst. fold steerers in Hst.
  assert (Hlen : forall t, (t <= w)%nat -> (length (inner_at cf t) <= Z.to_nat kernel_grid)%nat).
  { intros t Ht. destruct (al_inner _ _ _ Hal t Ht) as [Hnd Hcs]. etransitivity; [|exact Hsize]. apply NoDup_incl_length; [exact Hnd|].
    intros c Hc. apply Harea. now apply Hcs. }
  destruct (cnode_init_ok upd nb edge nanos I steerers due ser (start * nanos) w N cf Hn Hw Hst Hser Hal Hlen dflt start (ini O) eq_refl) as (nd0 & E0 & Inv0).
  { intros c Hc. rewrite (act_steered nanos start last sts 0 c _ Hn Hl Hsts), Nat.add_0_r. rewrite Hini by auto. reflexivity. }
  exists [cf]. eexists. split; [exact Ec|]. split; [unfold csim_init; cbn [cinit_nodes]; rewrite E0; reflexivity|]. split.
  - intros es. match goal with |- match csim_run _ _ _ _ _ _ _ ?S _ with _ => _ end =>
      pose proof (csim_run_ok upd nb edge nanos I steerers due ser (start * nanos) w N cf Hn Hw Hst Hser Hnb Hal Hlen es S nd0 eq_refl Inv0) as H end.
    destruct (csim_run _ _ _ _ _ _ _ _ es) as [s'| |]; auto. destruct H as (nd & Hnd & HN & Hlog & Hp). exists nd. split; [exact Hnd|].
    split; [exact HN|]. split; [exact Hlog|]. intros Hpc. rewrite Hpc in Hp. destruct Hp as ([Hc1 Hc2] & _ & _ & _ & Hd).
    split; [exact Hc1|]. split; [exact Hc2|]. intros c Hc. rewrite Hd by auto. symmetry. now apply ste_st.
  - eapply (csim_finish upd nb edge nanos I steerers due ser (start * nanos) w N cf Hn Hw Hst Hser Hnb Hal Hlen); [apply Nat.lt_succ_diag_r|reflexivity|exact Inv0].
Qed.
Print Assumptions C178_single_node.

Theorem C178_regular_grid : forall C (upd : nat -> coord -> list C -> C) (edge dflt : C) nanos due d dim t w offs part area (g0 : grid C) ini start last N
    (sts : list (nat * @action C)),
  length dim = S d -> length t = S d -> Forall (fun x => 0 < x) dim -> (1 <= w)%nat -> Forall (fun x => Z.of_nat w <= x) dim ->
  Forall (fun o => near (diagonal (S d) 1) o (diagonal (S d) 0)) offs ->
  exact_cover d 1 part (in_grid dim) -> (forall c, In c area <-> in_grid dim c) -> (length area <= 200)%nat -> (1 <= nanos)%nat ->
  (start <= last)%nat -> Forall (fun s => (1 <= fst s)%nat) sts -> (forall c, in_grid dim c -> ini 0%nat c = g0 c) ->
  let nb := stencil_nb t dim offs in
  let steerers := make_steerers nanos start last sts in
  exists cfs st0,
    configs (Regular dim t) part w 1 = Some cfs /\ csim_init nanos steerers due cfs dflt start N ini = Ok st0 /\
    (forall es, match csim_run upd nb edge nanos steerers due cfs st0 es with
      | Ok st => exists nd, cs_nodes st = [nd] /\
          device_matches (fun k => fst (serial_after upd nb edge nanos start last sts area g0 k)) (serial_steered upd nb edge nanos start last sts area g0)
            nanos (start * nanos) N (in_grid dim) due nd
      | Wait => True
      | Fail => False
      end) /\
    exists es st, csim_run upd nb edge nanos steerers due cfs st0 es = Ok st /\ cfinished st.
Proof.
  intros C upd edge dflt nanos due d dim t w offs part area g0 ini start last N sts Hd Ht Hp Hw Hwd Ho Hcov Harea Hsize Hn Hl Hsts Hini nb steerers.
  eapply C178_single_node; eauto; [constructor; auto|now apply stencil_reads].
Qed.
Print Assumptions C178_regular_grid.

Definition cx_part (weights : list Z) : nat -> option indices := striping_region 100 [0; 0] [4; 2] 0 weights.
Definition cx_area : list coord := [[0; 0]; [0; 1]; [1; 0]; [1; 1]; [2; 0]; [2; 1]; [3; 0]; [3; 1]].
Definition cx_offs : list coord := [[0; 0]; [-1; 0]; [1; 0]].
Definition cx_upd (nano : nat) (c : coord) (l : list Z) : Z := fold_right Z.add 0 l.
Definition cx_ini : grid Z := fun c => 1 + hd 0 c * 2 + last c 0.
Definition cx_run (t : list bool) part w n nanos sts due N rounds :=
  match configs (Regular [4; 2] t) part w n with
  | Some cfs =>
      match csim_init nanos sts due cfs (-5) 0 N (fun _ => cx_ini) with
      | Ok st0 =>
          match csim_run cx_upd (stencil_nb t [4; 2] cx_offs) 0 nanos sts due cfs st0
                  (snd (csim_rounds cx_upd (stencil_nb t [4; 2] cx_offs) 0 nanos sts due cfs rounds (all_events n) st0)) with
          | Ok st => Some (cfs, st0, st)
          | _ => None
          end
      | _ => None
      end
  | None => None
  end.

Lemma cx_area_in : forall c, In c cx_area <-> in_grid [4; 2] c.
Proof.
  intros c. unfold cx_area, in_grid. split.
  - cbn [In]. intros H. repeat (destruct H as [<-|H]; [cbn; lia|]). destruct H.
  - destruct c as [|y [|x [|? ?]]]; cbn [inside map]; try tauto. intros (Hy & Hx & _).
    assert (y = 0 \/ y = 1 \/ y = 2 \/ y = 3) as Hy' by lia. assert (x = 0 \/ x = 1) as Hx' by lia.
    destruct Hy' as [->|[->|[->| ->]]], Hx' as [->| ->]; cbn; tauto.
Qed.

(** A torus, 3 steps of 2 nano steps, a steerer in each step, ghost zones of
    width 2 (which are not needed); accepters want to see every third nano step. *)
Example C178_example :
  let sts := [(1%nat, fun (s : nat) (_ : ioevent) (c : coord) x => if Z.eqb (hd 0 c) 0 then x + Z.of_nat s else x)] in
  let due := fun t => Nat.eqb (Nat.modulo t 3) 0 in
  let nb := stencil_nb [true; true] [4; 2] cx_offs in
  exact_cover 1 1 (cx_part [8]) (in_grid [4; 2]) /\ (forall c, In c cx_area <-> in_grid [4; 2] c) /\
  Forall (fun o => near (diagonal 2 1) o (diagonal 2 0)) cx_offs /\
  option_map (fun '(_, _, st) => map (fun nd => (u_pc nd, u_left nd, map (u_dold nd) [[0; 0]; [3; 1]],
      map (fun e => (lg_time e, map (lg_grid e) [[0; 0]; [3; 1]])) (filter (fun e => negb (lg_rim e)) (u_log nd)))) (cs_nodes st))
    (cx_run [true; true] (cx_part [8]) 2 1 2 (make_steerers 2 0 3 sts) due 6 40) =
  Some [(PStep, 0%nat, map (serial_steered cx_upd nb 0 2 0 3 sts cx_area cx_ini 6) [[0; 0]; [3; 1]],
    map (fun k => (k, map (fst (serial_after cx_upd nb 0 2 0 3 sts cx_area cx_ini k)) [[0; 0]; [3; 1]])) [0; 3; 6]%nat)].
Proof.
  intros sts due nb. split; [|split; [exact cx_area_in|split; [repeat constructor; cbn; lia|vm_compute; reflexivity]]].
  apply (C12_striping 1 [0; 0] [4; 2] 0 [8] 100); try reflexivity; try (repeat constructor; lia); cbn; lia.
Qed.

(** ** C179 *)

Lemma cx_run_calls t part w n N rounds c c' v v' : obind (cx_run t part w n 1 [] (fun _ => true) N rounds) (fun '(_, _, st) => option_map (fun nd =>
    (option_map (fun e => (lg_time e, lg_rim e, lg_region e, lg_grid e c)) (nth_error (u_log nd) 4),
     option_map (fun e => (lg_time e, lg_rim e, lg_region e, lg_grid e c')) (nth_error (u_log nd) 5))) (nth_error (cs_nodes st) 0)) = Some (Some v, Some v') ->
  exists cfs st0 es st nd e e',
    configs (Regular [4; 2] t) part w n = Some cfs /\ csim_init 1 [] (fun _ => true) cfs (-5) 0 N (fun _ => cx_ini) = Ok st0 /\
    csim_run cx_upd (stencil_nb t [4; 2] cx_offs) 0 1 [] (fun _ => true) cfs st0 es = Ok st /\ nth_error (cs_nodes st) 0 = Some nd /\
    In e (u_log nd) /\ v = (lg_time e, lg_rim e, lg_region e, lg_grid e c) /\
    In e' (u_log nd) /\ v' = (lg_time e', lg_rim e', lg_region e', lg_grid e' c').
Proof.
  unfold cx_run. destruct (configs _ _ w n) as [cfs|]; [|discriminate]. destruct (csim_init 1 [] (fun _ => true) cfs (-5) 0 N (fun _ => cx_ini)) as [st0| |] eqn:E0; try discriminate.
  destruct (csim_run cx_upd _ 0 1 [] _ cfs st0 _) as [st| |] eqn:E1; try discriminate. cbn [obind].
  destruct (nth_error (cs_nodes st) 0) as [nd|] eqn:E2; [|discriminate]. cbn [option_map].
  destruct (nth_error (u_log nd) 4) as [e|] eqn:E3; [|discriminate]. destruct (nth_error (u_log nd) 5) as [e'|] eqn:E4; [|discriminate].
  cbn [option_map]. intros Hx. injection Hx as H1 H2.
  exists cfs, st0. eexists. exists st, nd, e, e'. split; [reflexivity|]. split; [exact E0|]. split; [exact E1|]. split; [exact E2|].
  split; [eapply nth_error_In; eauto|]. split; [auto|]. split; [eapply nth_error_In; eauto|]. auto.
Qed.

(** Refuted: with two nodes. [updateGhost] copies the rim from the device, but
    this is where it isn't updated; the kernel next to it is overwritten with
    outdated cells from the host. The wrong values are reported at nano step
    2, with ghost zones of width 1. *)
Theorem C179_two_nodes_refuted : exists C (upd : nat -> coord -> list C -> C) (edge dflt : C) dim t offs w n part area (g0 : grid C) N cfs st0 es st nd e e' c c',
  length dim = 2%nat /\ length t = 2%nat /\ Forall (fun x => 0 < x) dim /\ Forall (fun x => Z.of_nat w <= x) dim /\
  Forall (fun o => near (diagonal 2 1) o (diagonal 2 0)) offs /\
  exact_cover 1 n part (in_grid dim) /\ (forall c, In c area <-> in_grid dim c) /\ (length area <= 200)%nat /\
  configs (Regular dim t) part w n = Some cfs /\ csim_init 1 [] (fun _ => true) cfs dflt 0 N (fun _ => g0) = Ok st0 /\
  csim_run upd (stencil_nb t dim offs) edge 1 [] (fun _ => true) cfs st0 es = Ok st /\ nth_error (cs_nodes st) 0 = Some nd /\
  let ser := serial_after upd (stencil_nb t dim offs) edge 1 0 N [] area g0 2 in
  In e (u_log nd) /\ lg_time e = 2%nat /\ lg_rim e = true /\ In c (lg_region e) /\ lg_grid e c <> fst ser c /\
  In e' (u_log nd) /\ lg_time e' = 2%nat /\ lg_rim e' = false /\ In c' (lg_region e') /\ lg_grid e' c' <> fst ser c'.
Proof.
  exists Z, cx_upd, 0, (-5), [4; 2], [false; false], cx_offs, 1%nat, 2%nat, (cx_part [4; 4]), cx_area, cx_ini, 3%nat.
  assert (Hc : exact_cover 1 2 (cx_part [4; 4]) (in_grid [4; 2])).
  { apply (C12_striping 1 [0; 0] [4; 2] 0 [4; 4] 100); try reflexivity; try (repeat constructor; lia); cbn; lia. }
  destruct (cx_run_calls [false; false] (cx_part [4; 4]) 1 2 3 20 [1; 0] [0; 0] (2%nat, true, [[1; 0]; [1; 1]], 14) (2%nat, false, [[0; 0]; [0; 1]], -1))
    as (cfs & st0 & es & st & nd & e & e' & R1 & R2 & R3 & R4 & R5 & Hv & R10 & Hv'); [vm_compute; reflexivity|].
  injection Hv as R6 R7 R8 R9. injection Hv' as R11 R12 R13 R14.
  exists cfs, st0, es, st, nd, e, e', [1; 0], [0; 0]. split; [reflexivity|]. split; [reflexivity|]. split; [repeat constructor|]. split; [repeat constructor; lia|].
  split; [repeat constructor; cbn; lia|]. split; [exact Hc|]. split; [exact cx_area_in|]. split; [cbn; lia|]. split; [exact R1|]. split; [exact R2|]. split; [exact R3|].
  split; [exact R4|].
  assert (S1 : fst (serial_after cx_upd (stencil_nb [false; false] [4; 2] cx_offs) 0 1 0 3 [] cx_area cx_ini 2) [1; 0] = 28) by (vm_compute; reflexivity).
  assert (S2 : fst (serial_after cx_upd (stencil_nb [false; false] [4; 2] cx_offs) 0 1 0 3 [] cx_area cx_ini 2) [0; 0] = 13) by (vm_compute; reflexivity).
  split; [exact R5|]. split; [auto|]. split; [auto|]. split; [rewrite <- R8; left; reflexivity|].
  split; [rewrite <- R9, S1; discriminate|]. split; [exact R10|]. split; [auto|]. split; [auto|]. split; [rewrite <- R13; left; reflexivity|].
  rewrite <- R14, S2. discriminate.
Qed.
Print Assumptions C179_two_nodes_refuted.
