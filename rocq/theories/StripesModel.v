(** StripingSimulator (/repo/src/libgeodecomp/parallelization/stripingsimulator.h):
    all nodes, their messages and load balancing. Definitions only.

    A node's [partitions] are replaced in a collective operation only, hence
    there is one copy of them here. Grids are total functions of the
    coordinate, as in StepperModel; [remapRegion] is the identity. Messages
    between two nodes arrive in the order they were sent (MPI, same tag).
    [balanceLoad] (gather, LoadBalancer, broadcast, exchange of rows) is a
    single event in which all nodes take part; the event provides the result
    of the LoadBalancer, which depends on measured times. Steerers change cells
    one by one, without regard to other cells, feedback is not modelled. *)
From Verif Require Import Base CoordModel RegionSpec RegionModel RegionOpsModel PartitionManagerModel PatchModel AdapterModel StepperModel.

(** [partition] (stripingsimulator.h:224-232), without overflow. *)
Definition stripe_partition (height : Z) (size : nat) : list Z :=
  map (fun i => height * Z.of_nat i / Z.of_nat size) (seq 0 size) ++ [height].

(** [partitionsToWorkloads] (509-516) *)
Fixpoint partitions_to_workloads (parts : list Z) : list Z :=
  match parts with
  | a :: ((b :: _) as rest) => (b - a) :: partitions_to_workloads rest
  | _ => []
  end.

(** [workloadsToPartitions] (518-526) *)
Fixpoint workloads_from (a : Z) (ws : list Z) : list Z :=
  match ws with
  | [] => [a]
  | w :: ws' => a :: workloads_from (a + w) ws'
  end.
Definition workloads_to_partitions (ws : list Z) : list Z := workloads_from 0 ws.

(** [validateLoads] (617-624) *)
Definition validate_loads (new old : list Z) : bool :=
  Nat.eqb (length new) (length old) && Z.eqb (fold_left Z.add new 0) (fold_left Z.add old 0).

(** [boundingBox], [fillRegion] (359-370, 432-437) *)
Definition fill_rows (dim : coord) (start stop : Z) : option indices :=
  let zero := map (fun _ => 0) dim in
  reg_insert_box (Z.to_nat (prod dim)) (reg_empty (length dim)) (mkBox (start :: tl zero) (Z.max (stop - start) 0 :: tl dim)).

(** The rows of node [i]. *)
Definition row_start (parts : list Z) (i : nat) : Z := nth i parts 0.
Definition row_end (parts : list Z) (i : nat) : Z := nth (S i) parts 0.

(** The members set by [initRegions]: [region], [regionWithOuterGhosts],
    [innerRegion], [innerGhostRegion], [outerGhostRegions] and
    [innerGhostRegions]. *)
Record scfg := mkScfg {
  sc_region : list coord;
  sc_expanded : list coord;
  sc_inner : list coord;
  sc_rim : list coord;
  sc_in : list (nat * list coord);
  sc_out : list (nat * list coord)
}.

(** The loop over the other nodes in [initRegions] (463-486). *)
Fixpoint ghost_loop (sp : space) (dim : coord) (parts : list Z) (region expanded : indices) (rank : nat) (others : list nat) (rim : indices) :
  option (indices * list (nat * list coord) * list (nat * list coord)) :=
  match others with
  | [] => Some (rim, [], [])
  | i :: others' =>
      if Nat.eqb i rank then ghost_loop sp dim parts region expanded rank others' rim
      else
        obind (fill_rows dim (row_start parts i) (row_end parts i)) (fun other =>
        obind (sp_expand sp 1 other) (fun other_ex =>
        obind (reg_isect expanded other) (fun outer =>
        obind (reg_isect region other_ex) (fun inner =>
        obind (if reg_is_empty inner then Some rim else reg_union_assign rim inner) (fun rim' =>
        obind (region_coords outer) (fun oc =>
        obind (region_coords inner) (fun ic =>
        obind (ghost_loop sp dim parts region expanded rank others' rim') (fun '(rim'', ins, outs) =>
          Some (rim'', if reg_is_empty outer then ins else (i, oc) :: ins, if reg_is_empty inner then outs else (i, ic) :: outs)))))))))
  end.

(** [initRegions] (445-490) *)
Definition stripe_config (sp : space) (dim : coord) (parts : list Z) (n rank : nat) : option scfg :=
  obind (fill_rows dim (row_start parts rank) (row_end parts rank)) (fun region =>
  obind (sp_expand sp 1 region) (fun expanded =>
  obind (ghost_loop sp dim parts region expanded rank (seq 0 n) (reg_empty (length dim))) (fun '(rim, ins, outs) =>
  obind (reg_diff region rim) (fun inner =>
  obind (region_coords region) (fun rc =>
  obind (region_coords expanded) (fun ec =>
  obind (region_coords inner) (fun nc =>
  obind (region_coords rim) (fun gc =>
    Some (mkScfg rc ec nc gc ins outs))))))))).

Definition stripe_configs (sp : space) (dim : coord) (parts : list Z) (n : nat) : option (list scfg) :=
  mapo (stripe_config sp dim parts n) (seq 0 n).

(** Calls of a ParallelWriter: [setRegion], and [stepFinished] with step,
    whether it is the last one, region and grid. The writer's period is 1. *)
Inductive wcall (C : Type) :=
| WRegion (region : list coord)
| WFinished (step : nat) (last : bool) (region : list coord) (g : grid C).
Arguments WRegion {C}. Arguments WFinished {C}.

(** The members of a StripingSimulator: [stepNum], the number of nano steps
    performed within this step, [curStripe], [newStripe], whether there are
    pending requests with tag GHOSTREGION, whether this step's [balanceLoad] is
    over, the calls of a writer. *)
Record snode (C : Type) := mkSN {
  sn_step : nat; sn_nano : nat; sn_cur : grid C; sn_new : grid C; sn_pend : bool; sn_bal : bool; sn_log : list (wcall C)
}.
Arguments mkSN {C}. Arguments sn_step {C}. Arguments sn_nano {C}. Arguments sn_cur {C}. Arguments sn_new {C}.
Arguments sn_pend {C}. Arguments sn_bal {C}. Arguments sn_log {C}.

(** Messages with tag GHOSTREGION on their way: sender, receiver. *)
Definition chans (C : Type) := nat -> nat -> list (list C).

Definition set_chan {C} (ch : chans C) (i j : nat) (l : list (list C)) : chans C :=
  fun a b => if Nat.eqb a i && Nat.eqb b j then l else ch a b.

Record stripes (C : Type) := mkStripes { ss_parts : list Z; ss_cfgs : list scfg; ss_nodes : list (snode C); ss_chan : chans C }.
Arguments mkStripes {C}. Arguments ss_parts {C}. Arguments ss_cfgs {C}. Arguments ss_nodes {C}. Arguments ss_chan {C}.

(** A node performs a nano step; the flag says whether MPI buffers the
    messages sent before, otherwise sending has to wait for the receiver to post
    the receive. Or all nodes balance their loads with the given result of the
    LoadBalancer. *)
Inductive sevent := SNano (i : nat) (buffered : bool) | SBal (ws : list Z).

Section Stripes.
Context {C : Type}.
Variable upd : nat -> coord -> list C -> C.
Variable nb : coord -> list (option coord).
Variable edge : C.
Variable nanos : nat.
Variable steer : nat -> coord -> C -> C.   (* all the steerers due at a step *)
Variable sp : space.
Variable dim : coord.
Variable n : nat.                          (* number of nodes *)
Variable period : nat.                     (* loadBalancingPeriod *)
Variable start max_steps : nat.
Variable ini : grid C.                     (* what the Initializer yields *)

(** The steerers' [nextStep] for a region. *)
Definition steer_region (t : nat) (cs : list coord) (g : grid C) : grid C :=
  fold_left (fun g c => gset g c (steer t c (g c))) cs g.

(** [if (stepNum % loadBalancingPeriod != 0) return] (239-241) *)
Definition bal_due (t : nat) : bool := Nat.eqb (Nat.modulo t period) 0.

(** [waitForGhostRegions] (288-302). *)
Fixpoint load_ghosts (l : list (nat * list coord)) (i : nat) (ch : chans C) (g : grid C) : outcome (grid C * chans C) :=
  match l with
  | [] => Ok (g, ch)
  | (j, cs) :: l' =>
      match ch j i with
      | [] => Wait
      | m :: ms =>
          match load_region g cs m with
          | Some g' => load_ghosts l' i (set_chan ch j i ms) g'
          | None => Fail
          end
      end
  end.

Definition wait_ghosts (cf : scfg) (i : nat) (nd : snode C) (ch : chans C) : outcome (grid C * chans C) :=
  if sn_pend nd then load_ghosts (sc_in cf) i ch (sn_cur nd) else Ok (sn_cur nd, ch).

(** [sendInnerGhostRegion] (409-424) *)
Fixpoint send_ghosts (l : list (nat * list coord)) (i : nat) (ch : chans C) (g : grid C) : chans C :=
  match l with
  | [] => ch
  | (j, cs) :: l' => send_ghosts l' i (set_chan ch i j (ch i j ++ [save_region g cs])) g
  end.

(** Sends are complete if the receivers have posted matching receives. *)
Definition sends_done (cf : scfg) (i : nat) (nodes : list (snode C)) (ch : chans C) : bool :=
  forallb (fun '(j, _) =>
    match nth_error nodes j with
    | Some nj => Nat.leb (length (ch i j)) (if sn_pend nj then 1 else 0)
    | None => true
    end) (sc_out cf).

(** [handleInput] at the first nano step (315-335), [nanoStep] (269-286), and,
    after the last one, the remainder of [step] (116-122). *)
Definition stripe_nano (cf : scfg) (i : nat) (nd : snode C) (ch : chans C) : outcome (snode C * chans C) :=
  match wait_ghosts cf i nd ch with
  | Ok (cur, ch1) =>
      let cur' := if Nat.eqb (sn_nano nd) 0 then steer_region (sn_step nd) (sc_expanded cf) cur else cur in
      let new1 := update_region upd nb edge (sn_nano nd) (sc_rim cf) cur' (sn_new nd) in
      let ch2 := send_ghosts (sc_out cf) i ch1 new1 in
      let new2 := update_region upd nb edge (sn_nano nd) (sc_inner cf) cur' new1 in
      if Nat.eqb (S (sn_nano nd)) nanos then
        let t := S (sn_step nd) in
        Ok (mkSN t 0 new2 cur' true (negb (bal_due t)) (sn_log nd ++ [WFinished t (Nat.eqb t max_steps) (sc_region cf) new2]), ch2)
      else Ok (mkSN (sn_step nd) (S (sn_nano nd)) new2 cur' true (sn_bal nd) (sn_log nd), ch2)
  | Wait => Wait
  | Fail => Fail
  end.

(** [waitForGhostRegions] on all nodes. *)
Fixpoint wait_all (cfs : list scfg) (i : nat) (nodes : list (snode C)) (ch : chans C) : outcome (list (grid C) * chans C) :=
  match cfs, nodes with
  | cf :: cfs', nd :: nodes' =>
      match wait_ghosts cf i nd ch with
      | Ok (g, ch1) =>
          match wait_all cfs' (S i) nodes' ch1 with
          | Ok (gs, ch2) => Ok (g :: gs, ch2)
          | Wait => Wait
          | Fail => Fail
          end
      | Wait => Wait
      | Fail => Fail
      end
  | _, _ => Ok ([], ch)
  end.

(** Rows [new_start, new_end) are collected from their previous owners
    (541-568, 599-601). *)
Fixpoint collect_rows (parts : list Z) (new_start new_end : Z) (curs : list (grid C)) (k : nat) (g : grid C) : option (grid C) :=
  match curs with
  | [] => Some g
  | src :: curs' =>
      let s := Z.max new_start (row_start parts k) in
      let e := Z.min new_end (row_end parts k) in
      if s <? e then
        obind (fill_rows dim s e) (fun r =>
        obind (region_coords r) (fun cs =>
        obind (load_region g cs (save_region src cs)) (fun g' => collect_rows parts new_start new_end curs' (S k) g')))
      else collect_rows parts new_start new_end curs' (S k) g
  end.

(** [redistributeGrid] after the comparison of partitions (535-611), for all
    nodes. *)
Fixpoint redistribute (parts new_parts : list Z) (curs : list (grid C)) (cfs : list scfg) (i : nat) (nodes : list (snode C)) (ch : chans C) :
  option (list (snode C) * chans C) :=
  match cfs, nodes with
  | cf :: cfs', nd :: nodes' =>
      obind (collect_rows parts (row_start new_parts i) (row_end new_parts i) curs 0 ini) (fun g =>
      obind (redistribute parts new_parts curs cfs' (S i) nodes' (send_ghosts (sc_out cf) i ch g)) (fun '(l, ch') =>
        Some (mkSN (sn_step nd) (sn_nano nd) g ini true true (sn_log nd) :: l, ch')))
  | _, _ => Some ([], ch)
  end.

(** [balanceLoad] (237-267) and [redistributeGrid] (528-534). *)
Definition stripe_balance (st : stripes C) (ws : list Z) : outcome (stripes C) :=
  if negb (validate_loads ws (partitions_to_workloads (ss_parts st))) then Fail
  else
    let new_parts := workloads_to_partitions ws in
    match wait_all (ss_cfgs st) 0 (ss_nodes st) (ss_chan st) with
    | Ok (curs, ch) =>
        if list_eq_dec Z.eq_dec new_parts (ss_parts st) then
          Ok (mkStripes (ss_parts st) (ss_cfgs st)
               (map (fun '(g, nd) => mkSN (sn_step nd) (sn_nano nd) g (sn_new nd) false true (sn_log nd)) (combine curs (ss_nodes st))) ch)
        else
          match stripe_configs sp dim new_parts n with
          | Some cfs =>
              match redistribute (ss_parts st) new_parts curs cfs 0 (ss_nodes st) ch with
              | Some (nodes, ch') => Ok (mkStripes new_parts cfs nodes ch')
              | None => Fail
              end
          | None => Fail
          end
    | Wait => Wait
    | Fail => Fail
    end.

Definition stripes_step (st : stripes C) (e : sevent) : outcome (stripes C) :=
  match e with
  | SNano i buffered =>
      match nth_error (ss_cfgs st) i, nth_error (ss_nodes st) i with
      | Some cf, Some nd =>
          if sn_bal nd && Nat.ltb (sn_step nd) max_steps && (buffered || negb (sn_pend nd) || sends_done cf i (ss_nodes st) (ss_chan st)) then
            match stripe_nano cf i nd (ss_chan st) with
            | Ok (nd', ch') => Ok (mkStripes (ss_parts st) (ss_cfgs st) (set_nth (ss_nodes st) i nd') ch')
            | Wait => Wait
            | Fail => Fail
            end
          else Wait
      | _, _ => Wait
      end
  | SBal ws =>
      if forallb (fun nd => negb (sn_bal nd) && Nat.ltb (sn_step nd) max_steps) (ss_nodes st) then stripe_balance st ws else Wait
  end.

Fixpoint stripes_run (st : stripes C) (es : list sevent) : outcome (stripes C) :=
  match es with
  | [] => Ok st
  | e :: es' => match stripes_step st e with Ok st' => stripes_run st' es' | x => x end
  end.

(** Constructor and the beginning of [run] (58-75, 130-132, 495-507). *)
Definition stripes_init : option (stripes C) :=
  let parts := stripe_partition (hd 0 dim) n in
  obind (stripe_configs sp dim parts n) (fun cfs =>
    Some (mkStripes parts cfs
      (map (fun cf => mkSN start 0 ini ini false (negb (bal_due start)) [WRegion (sc_region cf); WFinished start false (sc_region cf) ini]) cfs)
      (fun _ _ => []))).

(** Another call of [run] (130-132, 495-507): messages which have been sent are
    not received before the next nano step. *)
Definition stripes_restart (st : stripes C) : stripes C :=
  mkStripes (ss_parts st) (ss_cfgs st)
    (map (fun '(cf, nd) => mkSN start 0 ini ini (sn_pend nd) (negb (bal_due start)) (sn_log nd ++ [WRegion (sc_region cf); WFinished start false (sc_region cf) ini]))
      (combine (ss_cfgs st) (ss_nodes st)))
    (ss_chan st).

(** ** The serial simulation, with steerers *)

(** [SerialSimulator::step] (serialsimulator.h:76-93) *)
Definition serial_step_steered (area : list coord) (gs : grid C * grid C) (t : nat) : grid C * grid C :=
  serial_step upd nb edge nanos area (steer_region t area (fst gs), snd gs).

End Stripes.

(** Perform all possible events, [rounds] times; [bal t] is the LoadBalancer's
    result at step [t]. *)
Fixpoint stripes_rounds {C} upd nb (edge : C) nanos steer sp dim n period max_steps ini (bal : nat -> list Z) (rounds : nat) (st : stripes C) : stripes C * list sevent :=
  match rounds with
  | O => (st, [])
  | S r =>
      let t := match ss_nodes st with nd :: _ => sn_step nd | [] => O end in
      let '(st', es) := fold_left (fun '(s, es) e =>
        match stripes_step upd nb edge nanos steer sp dim n period max_steps ini s e with Ok s' => (s', es ++ [e]) | _ => (s, es) end)
        (SBal (bal t) :: map (fun i => SNano i false) (seq 0 n)) (st, []) in
      let '(st'', es') := stripes_rounds upd nb edge nanos steer sp dim n period max_steps ini bal r st' in (st'', es ++ es')
  end.
