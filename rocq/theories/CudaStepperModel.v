(** The CUDAStepper, which updates the inner sets on the device and the ghost
    zones on the host. Definitions only.

    Sources: parallelization/nesting/cudastepper.h,
    parallelization/nesting/commonstepper.h, both below
    /repo/src/libgeodecomp.

    Grids are functions, as in StepperModel, also those on the device; transfers
    and kernel launches on the actual grids are covered by CudaGridModel (C174,
    C176). Updates are functions of the neighborhood. The nodes exchange their
    ghost zones by the links of StepperModel. *)
From Verif Require Import Base HaloSpec PatchModel AdapterModel StepperModel CudaGridModel.

(** [saveRegion], [loadRegion] (storage/cudagrid.h:181-202): the cells [cs] of [src]
    replace those of [dst]. *)
Definition copy_region {C} (cs : list coord) (src dst : grid C) : grid C :=
  fold_left (fun g c => gset g c (src c)) cs dst.

(** Members, as in [node]; [u_dold] and [u_dnew] are oldDeviceGrid and
    newDeviceGrid. *)
Record cnode (C : Type) := mkCNode {
  u_step : nat; u_nano : nat; u_valid : nat;
  u_old : grid C; u_new : grid C; u_dold : grid C; u_dnew : grid C;
  u_sg : list (list nat); u_si : list (list nat);
  u_log : list (logent C); u_left : nat; u_pc : pc
}.
Arguments mkCNode {C}. Arguments u_step {C}. Arguments u_nano {C}. Arguments u_valid {C}. Arguments u_old {C}. Arguments u_new {C}.
Arguments u_dold {C}. Arguments u_dnew {C}. Arguments u_sg {C}. Arguments u_si {C}. Arguments u_log {C}. Arguments u_left {C}. Arguments u_pc {C}.

Section CSim.
Context {C : Type}.
Variable upd : nat -> coord -> list C -> C.
Variable nb : coord -> list (option coord).
Variable edge : C.
Variable nanos : nat.
Variable steerers : list (adapter * @action C).
(* whether some accepter for the inner set requires the given nano step *)
Variable due : nat -> bool.

(** The kernel's effect (C176_kernel_blocks): cells beyond the number of blocks
    are left out. *)
Definition kernel (nano : nat) (cs : list coord) (src dst : grid C) : grid C :=
  update_region upd nb edge nano (firstn (Z.to_nat kernel_grid) cs) src dst.

(** [notifyPatchAcceptersInnerSet] (cudastepper.h:397-432): the host's grid and
    the log. *)
Definition accept_inner (cs : list coord) (t : nat) (dold old : grid C) (log : list (logent C)) : grid C * list (logent C) :=
  if due t then let old' := copy_region cs dold old in (old', log ++ [mkLog t false cs old']) else (old, log).

(** [notifyPatchProvidersInnerSet] (cudastepper.h:434-474) *)
Definition steer_device (cs : list coord) (nd : cnode C) : outcome (cnode C) :=
  let t := global_step nanos (u_step nd) (u_nano nd) in
  if existsb (fun s => due_at s t) (u_si nd) then
    match call_steerers steerers (u_si nd) cs t (copy_region cs (u_dold nd) (u_old nd)) with
    | Ok (si, old) =>
        Ok (mkCNode (u_step nd) (u_nano nd) (u_valid nd) old (u_new nd) (copy_region cs old (u_dold nd)) (u_dnew nd)
              (u_sg nd) si (u_log nd) (u_left nd) (u_pc nd))
    | _ => Fail
    end
  else Ok nd.

(** [updateGhost] up to its loop (cudastepper.h:516-539) *)
Definition cstart_ghost (cf : node_cfg) (init : bool) (nd : cnode C) : cnode C :=
  mkCNode (u_step nd) (u_nano nd) (u_valid nd) (copy_region (rim_at cf (cf_w cf)) (u_dold nd) (u_old nd)) (u_new nd) (u_dold nd) (u_dnew nd)
    (u_sg nd) (u_si nd) (u_log nd) (u_left nd)
    (PRecv (mkGhost 0 (global_step nanos (u_step nd) (u_nano nd)) (u_step nd) (u_nano nd) init) (cf_in cf)).

(** [updateGhost] after its loop (cudastepper.h:567-584), followed by
    [resetValidGhostZoneWidth] and the end of [update1] (374-379), where [region]
    is the innermost set, unless called by [initGrids]. [getInnerRim] is
    computed like the volatile kernel (geometry/partitionmanager.h:322-323). *)
Definition cfinish_ghost (cf : node_cfg) (nd : cnode C) (gh : ghost) : outcome (cnode C) :=
  let '(old, new) := if Nat.odd (cf_w cf) then (u_new nd, u_old nd) else (u_old nd, u_new nd) in
  let nd' := mkCNode (gh_step gh) (gh_nano gh) (cf_w cf) old new (copy_region (cf_vol cf) old (u_dold nd)) (u_dnew nd)
               (u_sg nd) (u_si nd) (u_log nd) (u_left nd) PStep in
  if gh_init gh then Ok nd' else steer_device (inner_at cf (cf_w cf)) nd'.

(** [update1] (cudastepper.h:336-380) up to [updateGhost], or all of it *)
Definition cupdate1 (cf : node_cfg) (nd : cnode C) : outcome (cnode C) :=
  let v := (u_valid nd - 1)%nat in
  let region := inner_at cf (cf_w cf - v) in
  let dnew := kernel (u_nano nd) region (u_dold nd) (u_dnew nd) in
  let '(s, n) := tick nanos (u_step nd) (u_nano nd) in
  let '(old, log) := accept_inner region (global_step nanos s n) dnew (u_new nd) (u_log nd) in
  let nd' := mkCNode s n v old (u_old nd) dnew (u_dold nd) (u_sg nd) (u_si nd) log (u_left nd - 1) PStep in
  if Nat.eqb v 0 then Ok (cstart_ghost cf false nd') else steer_device region nd'.

Definition cset_pc (nd : cnode C) (p : pc) : cnode C :=
  mkCNode (u_step nd) (u_nano nd) (u_valid nd) (u_old nd) (u_new nd) (u_dold nd) (u_dnew nd) (u_sg nd) (u_si nd) (u_log nd) (u_left nd) p.

Definition cset_old (nd : cnode C) (g : grid C) : cnode C :=
  mkCNode (u_step nd) (u_nano nd) (u_valid nd) g (u_new nd) (u_dold nd) (u_dnew nd) (u_sg nd) (u_si nd) (u_log nd) (u_left nd) (u_pc nd).

(** Steerers, update and accepters within the loop of [updateGhost]
    (cudastepper.h:540-565) *)
Definition cupdate_rim (cf : node_cfg) (nd : cnode C) (gh : ghost) : outcome (cnode C) :=
  match call_steerers steerers (u_sg nd) (rim_at cf (gh_t gh)) (global_step nanos (u_step nd) (u_nano nd)) (u_old nd) with
  | Ok (sg, old) =>
      let new := update_region upd nb edge (u_nano nd) (rim_at cf (gh_t gh + 1)) old (u_new nd) in
      let '(s, n) := tick nanos (u_step nd) (u_nano nd) in
      Ok (mkCNode s n (u_valid nd) new old (u_dold nd) (u_dnew nd) sg (u_si nd)
        (u_log nd ++ [mkLog (gh_gl gh + 1) true (rim_at cf (cf_w cf)) new]) (u_left nd)
        (PSend (mkGhost (gh_t gh) (gh_gl gh + 1) (gh_step gh) (gh_nano gh) (gh_init gh)) (cf_out cf)))
  | _ => Fail
  end.

(** One step of node [i], see [node_step]. *)
Definition cnode_step (cf : node_cfg) (i : nat) (eager : bool) (ls : links C) (nd : cnode C) : outcome (cnode C * links C) :=
  match u_pc nd with
  | PStep =>
      if Nat.eqb (u_left nd) 0 then Wait
      else match cupdate1 cf nd with Ok nd' => Ok (nd', ls) | _ => Fail end
  | PRecv gh ((j, cs) :: rem) =>
      let t := global_step nanos (u_step nd) (u_nano nd) in
      if due_at (lk_sto (ls j i)) t then
        match link_get cs (ls j i) (u_old nd) t with
        | LDone (l, g) => Ok (cset_pc (cset_old nd g) (PRecv gh rem), set_link ls j i l)
        | LWait => Wait
        | LThrow => Fail
        end
      else Ok (cset_pc nd (PRecv gh rem), ls)
  | PRecv gh [] => match cupdate_rim cf nd gh with Ok nd' => Ok (nd', ls) | _ => Fail end
  | PSend gh ((j, cs) :: rem) =>
      if due_at (lk_req (ls i j)) (gh_gl gh) then
        match link_put cs eager (ls i j) (u_old nd) (gh_gl gh) with
        | LDone l => Ok (cset_pc nd (PSend gh rem), set_link ls i j l)
        | LWait => Wait
        | LThrow => Fail
        end
      else Ok (cset_pc nd (PSend gh rem), ls)
  | PSend gh [] =>
      if Nat.ltb (gh_t gh + 1) (cf_w cf)
      then Ok (cset_pc nd (PRecv (mkGhost (gh_t gh + 1) (gh_gl gh) (gh_step gh) (gh_nano gh) (gh_init gh)) (cf_in cf)), ls)
      else match cfinish_ghost cf nd gh with Ok nd' => Ok (nd', ls) | _ => Fail end
  end.

(** The constructor ([initGrids], cudastepper.h:476-505; [initGridsCommon],
    commonstepper.h:163-188): the whole of the old grid is copied to the device, the
    other one there consists of default cells. *)
Definition cnode_init (cf : node_cfg) (dflt : C) (start left : nat) (ini : grid C) : outcome (cnode C) :=
  let t0 := global_step nanos start 0 in
  let stos := map (fun '(a, _) => steerer_init a) steerers in
  match call_steerers steerers stos (cf_outer cf) t0 ini with
  | Ok (sg, g1) =>
      match call_steerers steerers stos (cf_own cf) t0 g1 with
      | Ok (si, old) =>
          let '(old', log) := accept_inner (inner_at cf 0) t0 old old [mkLog t0 true (rim_at cf (cf_w cf)) old] in
          Ok (cstart_ghost cf true (mkCNode start 0 (cf_w cf) old' ini old (fun _ => dflt) sg si log left PStep))
      | _ => Fail
      end
  | _ => Fail
  end.

(** ** All nodes, see [sim_step], [sim_run] and [sim_init] *)

Record csim := mkCSim { cs_nodes : list (cnode C); cs_links : links C }.

Definition csim_step (cfs : list node_cfg) (st : csim) (e : event) : outcome csim :=
  match e with
  | EvNode i eager =>
      match nth_error cfs i, nth_error (cs_nodes st) i with
      | Some cf, Some nd =>
          match cnode_step cf i eager (cs_links st) nd with
          | Ok (nd', ls') => Ok (mkCSim (set_nth (cs_nodes st) i nd') ls')
          | Wait => Wait
          | Fail => Fail
          end
      | _, _ => Wait
      end
  | EvArrive i j =>
      match link_deliver (cs_links st i j) with
      | Some l => Ok (mkCSim (cs_nodes st) (set_link (cs_links st) i j l))
      | None => Wait
      end
  end.

Fixpoint csim_run (cfs : list node_cfg) (st : csim) (es : list event) : outcome csim :=
  match es with
  | [] => Ok st
  | e :: es' => match csim_step cfs st e with Ok st' => csim_run cfs st' es' | x => x end
  end.

Fixpoint cinit_nodes (cfs : list node_cfg) (dflt : C) (start left : nat) (ini : nat -> grid C) (i : nat) : outcome (list (cnode C)) :=
  match cfs with
  | [] => Ok []
  | cf :: cfs' =>
      match cnode_init cf dflt start left (ini i), cinit_nodes cfs' dflt start left ini (S i) with
      | Ok nd, Ok l => Ok (nd :: l)
      | _, _ => Fail
      end
  end.

Definition csim_init (cfs : list node_cfg) (dflt : C) (start left : nat) (ini : nat -> grid C) : outcome csim :=
  match cinit_nodes cfs dflt start left ini 0 with
  | Ok nodes =>
      Ok (mkCSim nodes (fun i j =>
        let cs := match nth_error cfs i with Some cf => find_link (cf_out cf) j | None => [] end in
        let w := match nth_error cfs i with Some cf => cf_w cf | None => O end in
        link_charge dflt cs (global_step nanos start 0 + w) None w))
  | _ => Fail
  end.

(** Perform the events that are possible, one after the other, [rounds] times,
    for running the model. *)
Fixpoint csim_rounds (cfs : list node_cfg) (rounds : nat) (evs : list event) (st : csim) : csim * list event :=
  match rounds with
  | O => (st, [])
  | S r =>
      let '(st', es) := fold_left (fun '(s, es) e =>
        match csim_step cfs s e with Ok s' => (s', es ++ [e]) | _ => (s, es) end) evs (st, []) in
      let '(st'', es') := csim_rounds cfs r evs st' in (st'', es ++ es')
  end.
End CSim.
Arguments csim : clear implicits.
Arguments mkCSim {C}. Arguments cs_nodes {C}. Arguments cs_links {C}.
