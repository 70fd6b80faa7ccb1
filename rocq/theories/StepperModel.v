(** The parallel simulation: VanillaStepper on each node, PatchLinks between
    them; and the serial simulation. Definitions only.

    Sources: parallelization/nesting/vanillastepper.h,
    parallelization/nesting/commonstepper.h,
    parallelization/nesting/updategroup.h (init),
    parallelization/nesting/steereradapter.h,
    parallelization/hiparsimulator.h (addSteerer),
    parallelization/serialsimulator.h.

    Not modelled: timers, threads within a node, the placement of a node's grid
    in memory (a grid is a total function of the coordinate here; see
    OffsetModel and C124, C126 for OffsetHelper and DisplacedGrid). External PatchAccepters (writers) are represented by a log
    of all calls to [notifyPatchAccepters]. External PatchProviders are the
    adapters of steerers, which change each cell of the region they are given
    on its own, depending on the step, the event and the cell's coordinate. *)
From Verif Require Import Base CoordModel RegionSpec RegionModel RegionOpsModel PartitionManagerModel PatchModel AdapterModel.

(** What a node needs to know, see [node_config]. The rims and inner sets are
    indexed as in the PartitionManager. Links are given by the peer's rank and
    the coordinates to be exchanged. *)
Record node_cfg := mkCfg {
  cf_w : nat;                            (* ghostZoneWidth() *)
  cf_rims : list (list coord);
  cf_inner : list (list coord);
  cf_vol : list coord;                   (* getVolatileKernel() *)
  cf_in : list (nat * list coord);       (* providers, updategroup.h:186-204 *)
  cf_out : list (nat * list coord);      (* accepters, updategroup.h:206-225 *)
  cf_own : list coord;                   (* ownRegion() *)
  cf_outer : list coord                  (* getOuterRim() *)
}.

(** Loops over the ghost zone fragments (updategroup.h:190-204, 211-225). The
    entry of the out-group, which is empty (C19), is left out. *)
Fixpoint link_ends (m : list (nat * list indices)) : option (list (nat * list coord)) :=
  match m with
  | [] => Some []
  | (j, v) :: m' =>
      obind (last_region v) (fun r =>
      obind (link_ends m') (fun l =>
      if reg_is_empty r then Some l
      else obind (region_coords r) (fun cs => Some ((j, cs) :: l))))
  end.

(** [UpdateGroup::init] (updategroup.h:156-225) for node [i] of [n]. *)
Definition node_config (sp : space) (part : nat -> option indices) (w n i : nat) : option node_cfg :=
  obind (setup_node sp part w n i) (fun '(p, g) =>
  obind (mapo region_coords (pm_rims p)) (fun rims =>
  obind (mapo region_coords (pm_inner p)) (fun inner =>
  obind (region_coords (pm_volatile p)) (fun vol =>
  obind (link_ends (g_outer g)) (fun inl =>
  obind (link_ends (g_inner g)) (fun outl =>
  obind (nth_error (pm_own p) 0) (fun own =>
  obind (region_coords own) (fun own_cs =>
  obind (region_coords (pm_outer_rim p)) (fun outer =>
    Some (mkCfg w rims inner vol inl outl own_cs outer)))))))))).

Definition configs (sp : space) (part : nat -> option indices) (w n : nat) : option (list node_cfg) :=
  mapo (node_config sp part w n) (seq 0 n).

(** A call of [notifyPatchAccepters] for external accepters: with
    [GHOST_PHASE_0] ([lg_rim]) or [INNER_SET]. *)
Record logent (C : Type) := mkLog { lg_time : nat; lg_rim : bool; lg_region : list coord; lg_grid : grid C }.
Arguments mkLog {C}. Arguments lg_time {C}. Arguments lg_rim {C}. Arguments lg_region {C}. Arguments lg_grid {C}.

(** Local variables of [updateGhost] (vanillastepper.h:176-180):
    [oldStep], [oldNanoStep], [curGlobalNanoStep] and [t]; and whether it has
    been called by [initGrids] (vanillastepper.h:145) rather than by
    [update1]. *)
Record ghost := mkGhost { gh_t : nat; gh_gl : nat; gh_step : nat; gh_nano : nat; gh_init : bool }.

(** Where a node is: between two calls of [update1]; in the loop of
    [updateGhost], about to ask the given providers; or there, about to notify
    the given accepters. *)
Inductive pc :=
| PStep
| PRecv (gh : ghost) (rem : list (nat * list coord))
| PSend (gh : ghost) (rem : list (nat * list coord)).

(** The members of a CommonStepper; [n_left] is the number of remaining calls
    of [update1]; [n_sg] and [n_si] are the members [storedNanoSteps] of the
    steerers' adapters for the ghost zone and the inner set. *)
Record node (C : Type) := mkNode {
  n_step : nat; n_nano : nat; n_valid : nat;
  n_old : grid C; n_new : grid C;
  n_rim : fbuf C; n_ker : fbuf C;
  n_sg : list (list nat); n_si : list (list nat);
  n_log : list (logent C); n_left : nat; n_pc : pc
}.
Arguments mkNode {C}. Arguments n_step {C}. Arguments n_nano {C}. Arguments n_valid {C}. Arguments n_old {C}. Arguments n_new {C}.
Arguments n_rim {C}. Arguments n_ker {C}. Arguments n_sg {C}. Arguments n_si {C}. Arguments n_log {C}. Arguments n_left {C}. Arguments n_pc {C}.

Definition links (C : Type) := nat -> nat -> link C.   (* sender, receiver *)

Definition set_link {C} (ls : links C) (i j : nat) (l : link C) : links C :=
  fun a b => if Nat.eqb a i && Nat.eqb b j then l else ls a b.

Section Sim.
Context {C : Type}.

(** The cell's [update] with nano step, position and neighbourhood; the
    positions it reads, [None] for those beyond the edge of the grid; the edge
    cell; NANO_STEPS. *)
Variable upd : nat -> coord -> list C -> C.
Variable nb : coord -> list (option coord).
Variable edge : C.
Variable nanos : nat.

(** Steerers: the constant members of their adapters and what they do to a cell
    at a step, given the event. *)
Definition action := nat -> ioevent -> coord -> C -> C.
Variable steerers : list (adapter * action).

Definition read (g : grid C) (o : option coord) : C := match o with Some c => g c | None => edge end.

Definition new_cell (nano : nat) (src : grid C) (c : coord) : C := upd nano c (map (read src) (nb c)).

(** [UpdateFunctor()(region, ..., src, &dst, nanoStep)]
    (storage/updatefunctor.h). *)
Definition update_region (nano : nat) (cs : list coord) (src dst : grid C) : grid C :=
  fold_left (fun g c => gset g c (new_cell nano src c)) cs dst.

(** A steerer's [nextStep] with valid region [cs]. *)
Definition apply_region (f : coord -> C -> C) (cs : list coord) (g : grid C) : grid C :=
  fold_left (fun g c => gset g c (f c (g c))) cs g.

(** [notifyPatchProviders] for the steerers' adapters (commonstepper.h:136-156,
    steereradapter.h:53-109). *)
Fixpoint call_steerers (ss : list (adapter * action)) (stos : list (list nat)) (cs : list coord) (t : nat) (g : grid C) :
  outcome (list (list nat) * grid C) :=
  match ss, stos with
  | [], [] => Ok ([], g)
  | (a, f) :: ss', s :: stos' =>
      match notify (steerer_get a) s t with
      | Ok (s', calls) =>
          match call_steerers ss' stos' cs t (fold_left (fun g '(step, ev) => apply_region (f step ev) cs g) calls g) with
          | Ok (stos'', g') => Ok (s' :: stos'', g')
          | x => x
          end
      | _ => Fail
      end
  | _, _ => Fail
  end.

(** ** Serial simulation *)

(** [SerialSimulator::nanoStep] (serialsimulator.h:132-139). The state
    consists of curGrid and newGrid, [area] are the coordinates of simArea. *)
Definition serial_nano (area : list coord) (gs : grid C * grid C) (i : nat) : grid C * grid C :=
  let '(cur, new) := gs in (update_region i area cur new, cur).

(** The loop in [SerialSimulator::step] (serialsimulator.h:82-84). *)
Definition serial_step (area : list coord) (gs : grid C * grid C) : grid C * grid C :=
  fold_left (serial_nano area) (seq 0 nanos) gs.

(** [handleInput] (serialsimulator.h:162-180): all steerers with the given event
    at step [s]. *)
Definition serial_input (area : list coord) (e : ioevent) (s : nat) (g : grid C) : grid C :=
  fold_left (fun g '(a, f) =>
    if match e with IoStep => Nat.eqb (Nat.modulo s (ad_period a)) 0 | _ => true end
    then apply_region (f s e) area g else g) steerers g.

(** [step] (serialsimulator.h:76-84) at step [s] *)
Definition serial_sstep (area : list coord) (gs : grid C * grid C) (s : nat) : grid C * grid C :=
  serial_step area (serial_input area IoStep s (fst gs), snd gs).

(** [run] (serialsimulator.h:98-114): [n] steps, beginning at step [start]; the
    grid as seen by the writers after these steps. *)
Definition serial_run (area : list coord) (start n : nat) (g0 : grid C) : grid C * grid C :=
  fold_left (serial_sstep area) (seq start n) (serial_input area IoInitialized start g0, g0).

(** ** One node *)

(** [globalNanoStep()] (commonstepper.h:158-161) *)
Definition global_step (s n : nat) : nat := (s * nanos + n)%nat.

(** [++curNanoStep; if (curNanoStep == NANO_STEPS) ...] *)
Definition tick (s n : nat) : nat * nat :=
  if Nat.eqb (S n) nanos then (S s, O) else (s, S n).

(** [saveRim], [saveKernel] (commonstepper.h:235-244, 257-266) *)
Definition save_buf (cs : list coord) (b : fbuf C) (g : grid C) (t : nat) : outcome (fbuf C) :=
  match fbuf_step cs (fst (fbuf_step cs b (OPush t))) (OPut g t) with
  | (b', RVoid) => Ok b'
  | _ => Fail
  end.

(** [restoreRim], [restoreKernel] (commonstepper.h:246-255, 268-277) *)
Definition restore_buf (cs : list coord) (b : fbuf C) (g : grid C) (t : nat) (rm : bool) : outcome (fbuf C * grid C) :=
  match fbuf_step cs b (OGet g t rm) with
  | (b', RGrid g') => Ok (b', g')
  | _ => Fail
  end.

Definition rim_at (cf : node_cfg) (t : nat) : list coord := nth t (cf_rims cf) [].
Definition inner_at (cf : node_cfg) (t : nat) : list coord := nth t (cf_inner cf) [].

(** [updateGhost] up to its loop (vanillastepper.h:157-178). *)
Definition start_ghost (cf : node_cfg) (init : bool) (nd : node C) : outcome (node C) :=
  let gl := global_step (n_step nd) (n_nano nd) in
  match save_buf (cf_vol cf) (n_ker nd) (n_old nd) gl with
  | Ok ker =>
      match restore_buf (rim_at cf (cf_w cf)) (n_rim nd) (n_old nd) gl false with
      | Ok (rim, old) =>
          Ok (mkNode (n_step nd) (n_nano nd) (n_valid nd) old (n_new nd) rim ker (n_sg nd) (n_si nd) (n_log nd) (n_left nd)
                (PRecv (mkGhost 0 gl (n_step nd) (n_nano nd) init) (cf_in cf)))
      | _ => Fail
      end
  | _ => Fail
  end.

(** The end of [update1] (vanillastepper.h:126-128): steerers are called for the
    inner set. *)
Definition steer_inner (cf : node_cfg) (nd : node C) : outcome (node C) :=
  match call_steerers steerers (n_si nd) (inner_at cf (cf_w cf - n_valid nd)) (global_step (n_step nd) (n_nano nd)) (n_old nd) with
  | Ok (si, old) =>
      Ok (mkNode (n_step nd) (n_nano nd) (n_valid nd) old (n_new nd) (n_rim nd) (n_ker nd) (n_sg nd) si (n_log nd) (n_left nd) (n_pc nd))
  | _ => Fail
  end.

(** [updateGhost] after its loop (vanillastepper.h:211-224), followed by
    [resetValidGhostZoneWidth] (123) and the end of [update1], unless called
    by [initGrids]. *)
Definition finish_ghost (cf : node_cfg) (nd : node C) (gh : ghost) : outcome (node C) :=
  match save_buf (rim_at cf (cf_w cf)) (n_rim nd) (n_old nd) (gh_gl gh) with
  | Ok rim =>
      let '(old, new) := if Nat.odd (cf_w cf) then (n_new nd, n_old nd) else (n_old nd, n_new nd) in
      let gl := global_step (gh_step gh) (gh_nano gh) in
      match restore_buf (rim_at cf (cf_w cf)) rim old gl true with
      | Ok (rim', old') =>
          match restore_buf (cf_vol cf) (n_ker nd) old' gl true with
          | Ok (ker', old'') =>
              let nd' := mkNode (gh_step gh) (gh_nano gh) (cf_w cf) old'' new rim' ker' (n_sg nd) (n_si nd) (n_log nd) (n_left nd) PStep in
              if gh_init gh then Ok nd' else steer_inner cf nd'
          | _ => Fail
          end
      | _ => Fail
      end
  | _ => Fail
  end.

(** [update1] up to [updateGhost] (vanillastepper.h:93-121), or all of it if
    there is no need to update the ghost zone. *)
Definition update1 (cf : node_cfg) (nd : node C) : outcome (node C) :=
  let v := (n_valid nd - 1)%nat in
  let new := update_region (n_nano nd) (inner_at cf (cf_w cf - v)) (n_old nd) (n_new nd) in
  let '(s, n) := tick (n_step nd) (n_nano nd) in
  let nd' := mkNode s n v new (n_old nd) (n_rim nd) (n_ker nd) (n_sg nd) (n_si nd)
               (n_log nd ++ [mkLog (global_step s n) false (inner_at cf (cf_w cf)) new]) (n_left nd - 1) PStep in
  if Nat.eqb v 0 then start_ghost cf false nd' else steer_inner cf nd'.

Definition set_pc (nd : node C) (p : pc) : node C :=
  mkNode (n_step nd) (n_nano nd) (n_valid nd) (n_old nd) (n_new nd) (n_rim nd) (n_ker nd) (n_sg nd) (n_si nd) (n_log nd) (n_left nd) p.

Definition set_old (nd : node C) (g : grid C) : node C :=
  mkNode (n_step nd) (n_nano nd) (n_valid nd) g (n_new nd) (n_rim nd) (n_ker nd) (n_sg nd) (n_si nd) (n_log nd) (n_left nd) (n_pc nd).

(** The steerers, the update within the loop of [updateGhost] and the
    notification of external accepters (vanillastepper.h:182-208), which come
    first in the list of accepters (updategroup.h:247). *)
Definition update_rim (cf : node_cfg) (nd : node C) (gh : ghost) : outcome (node C) :=
  match call_steerers steerers (n_sg nd) (rim_at cf (gh_t gh)) (global_step (n_step nd) (n_nano nd)) (n_old nd) with
  | Ok (sg, old) =>
      let new := update_region (n_nano nd) (rim_at cf (gh_t gh + 1)) old (n_new nd) in
      let '(s, n) := tick (n_step nd) (n_nano nd) in
      Ok (mkNode s n (n_valid nd) new old (n_rim nd) (n_ker nd) sg (n_si nd)
        (n_log nd ++ [mkLog (gh_gl gh + 1) true (rim_at cf (cf_w cf)) new]) (n_left nd)
        (PSend (mkGhost (gh_t gh) (gh_gl gh + 1) (gh_step gh) (gh_nano gh) (gh_init gh)) (cf_out cf)))
  | _ => Fail
  end.

(** One step of node [i]. Loops over providers and accepters
    ([notifyPatchProviders], [notifyPatchAccepters], commonstepper.h:113-156)
    are performed element by element, as their calls may have to wait. *)
Definition node_step (cf : node_cfg) (i : nat) (eager : bool) (ls : links C) (nd : node C) : outcome (node C * links C) :=
  match n_pc nd with
  | PStep =>
      if Nat.eqb (n_left nd) 0 then Wait
      else match update1 cf nd with Ok nd' => Ok (nd', ls) | _ => Fail end
  | PRecv gh ((j, cs) :: rem) =>
      let t := global_step (n_step nd) (n_nano nd) in
      if due_at (lk_sto (ls j i)) t then
        match link_get cs (ls j i) (n_old nd) t with
        | LDone (l, g) => Ok (set_pc (set_old nd g) (PRecv gh rem), set_link ls j i l)
        | LWait => Wait
        | LThrow => Fail
        end
      else Ok (set_pc nd (PRecv gh rem), ls)
  | PRecv gh [] => match update_rim cf nd gh with Ok nd' => Ok (nd', ls) | _ => Fail end
  | PSend gh ((j, cs) :: rem) =>
      if due_at (lk_req (ls i j)) (gh_gl gh) then
        match link_put cs eager (ls i j) (n_old nd) (gh_gl gh) with
        | LDone l => Ok (set_pc nd (PSend gh rem), set_link ls i j l)
        | LWait => Wait
        | LThrow => Fail
        end
      else Ok (set_pc nd (PSend gh rem), ls)
  | PSend gh [] =>
      if Nat.ltb (gh_t gh + 1) (cf_w cf)
      then Ok (set_pc nd (PRecv (mkGhost (gh_t gh + 1) (gh_gl gh) (gh_step gh) (gh_nano gh) (gh_init gh)) (cf_in cf)), ls)
      else match finish_ghost cf nd gh with Ok nd' => Ok (nd', ls) | _ => Fail end
  end.

(** The constructor (vanillastepper.h:70-90, 131-146, [initGridsCommon],
    commonstepper.h:163-188); [ini] is the grid set up by the Initializer, of
    which newGrid is a copy. The links don't have anything to deliver at the
    first step; the steerers are called for the outer rim and for the node's own
    region. *)
Definition node_init (cf : node_cfg) (dflt : C) (start left : nat) (ini : grid C) : outcome (node C) :=
  let t0 := global_step start 0 in
  let rimw := rim_at cf (cf_w cf) in
  let stos := map (fun '(a, _) => steerer_init a) steerers in
  match call_steerers steerers stos (cf_outer cf) t0 ini with
  | Ok (sg, g1) =>
      match call_steerers steerers stos (cf_own cf) t0 g1 with
      | Ok (si, old) =>
          match save_buf rimw (fbuf_init 2 dflt rimw) old t0 with
          | Ok rim =>
              start_ghost cf true
                (mkNode start 0 (cf_w cf) old ini rim (fbuf_init 1 dflt (cf_vol cf)) sg si
                   [mkLog t0 true rimw old; mkLog t0 false (inner_at cf (cf_w cf)) old] left PStep)
          | _ => Fail
          end
      | _ => Fail
      end
  | _ => Fail
  end.

(** ** All nodes *)

Record sim := mkSim { s_nodes : list (node C); s_links : links C }.

(** Something happens: a node performs a step (the flag says whether MPI
    copies the message it may send), or a message arrives. *)
Inductive event := EvNode (i : nat) (eager : bool) | EvArrive (i j : nat).

Definition sim_step (cfs : list node_cfg) (st : sim) (e : event) : outcome sim :=
  match e with
  | EvNode i eager =>
      match nth_error cfs i, nth_error (s_nodes st) i with
      | Some cf, Some nd =>
          match node_step cf i eager (s_links st) nd with
          | Ok (nd', ls') => Ok (mkSim (set_nth (s_nodes st) i nd') ls')
          | Wait => Wait
          | Fail => Fail
          end
      | _, _ => Wait
      end
  | EvArrive i j =>
      match link_deliver (s_links st i j) with
      | Some l => Ok (mkSim (s_nodes st) (set_link (s_links st) i j l))
      | None => Wait
      end
  end.

Fixpoint sim_run (cfs : list node_cfg) (st : sim) (es : list event) : outcome sim :=
  match es with
  | [] => Ok st
  | e :: es' => match sim_step cfs st e with Ok st' => sim_run cfs st' es' | x => x end
  end.

Definition find_link (l : list (nat * list coord)) (j : nat) : list coord :=
  match find (fun x => Nat.eqb (fst x) j) l with Some (_, cs) => cs | None => [] end.

Fixpoint init_nodes (cfs : list node_cfg) (dflt : C) (start left : nat) (ini : nat -> grid C) (i : nat) : outcome (list (node C)) :=
  match cfs with
  | [] => Ok []
  | cf :: cfs' =>
      match node_init cf dflt start left (ini i), init_nodes cfs' dflt start left ini (S i) with
      | Ok nd, Ok l => Ok (nd :: l)
      | _, _ => Fail
      end
  end.

(** All nodes have been set up and are to perform [left] nano steps. The links
    are charged with the first synchronisation point (updategroup.h:182-184). *)
Definition sim_init (cfs : list node_cfg) (dflt : C) (start left : nat) (ini : nat -> grid C) : outcome sim :=
  match init_nodes cfs dflt start left ini 0 with
  | Ok nodes =>
      Ok (mkSim nodes (fun i j =>
        let cs := match nth_error cfs i with Some cf => find_link (cf_out cf) j | None => [] end in
        let w := match nth_error cfs i with Some cf => cf_w cf | None => O end in
        link_charge dflt cs (global_step start 0 + w) None w))
  | _ => Fail
  end.

End Sim.
Arguments sim : clear implicits.
Arguments mkSim {C}. Arguments s_nodes {C}. Arguments s_links {C}.

(** The neighbours at the relative coordinates [offs] on a regular grid:
    [Topology::locate] (topologies.h:185-199), which yields the edge cell for
    coordinates beyond the grid; [DisplacedGrid::operator[]]
    (storage/displacedgrid.h:200-215) normalises the coordinates before. *)
Definition stencil_nb (t : topology) (dim : coord) (offs : list coord) (c : coord) : list (option coord) :=
  map (fun o => let c' := zadd c o in if out_of_bounds t c' dim then None else Some (normalize_edges c' dim)) offs.

(** All the events of a simulation with [n] nodes, for running the model. *)
Definition all_events (n : nat) : list event :=
  flat_map (fun i => EvNode i false :: map (fun j => EvArrive i j) (seq 0 n)) (seq 0 n).

(** Perform the events that are possible, one after the other, [rounds] times. *)
Fixpoint sim_rounds {C} upd nb edge nanos steerers cfs (rounds : nat) (evs : list event) (st : sim C) : sim C * list event :=
  match rounds with
  | O => (st, [])
  | S r =>
      let '(st', es) := fold_left (fun '(s, es) e =>
        match sim_step upd nb edge nanos steerers cfs s e with Ok s' => (s', es ++ [e]) | _ => (s, es) end) evs (st, []) in
      let '(st'', es') := sim_rounds upd nb edge nanos steerers cfs r evs st' in (st'', es ++ es')
  end.

(** [HiParSimulator::addSteerer] (hiparsimulator.h:99-120) for steerers given by
    period and action, in a simulation from step [start] to step [last]. *)
Definition make_steerers {C} (nanos start last : nat) (l : list (nat * @action C)) : list (adapter * @action C) :=
  map (fun '(p, f) => (mkAdapter nanos p start last, f)) l.
